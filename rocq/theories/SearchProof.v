(** Proofs about the search for a simplest failing argument. *)
From Coq Require Import String List ZArith Lia Bool Permutation.
From Verif Require Import Base TreeModel TreeSpec TreeProof RandomModel TupleModel TupleProof ContainerProof BinSearchModel BinSearchSpec BinSearchProof
  IntegralModel IntegralSpec IntegralProof EffModel EffSpec EffProof
  ContextModel ContextSpec ContextProof RunnerModel RunnerSpec RunnerProof RunnerPureProof RunnerShrinkProof RunnerLogProof SearchSpec.
Import ListNotations.
Local Open Scope list_scope.

Lemma calls_app : forall V (beh : list V -> list op * ures) a b, calls beh (a ++ b) = calls beh a ++ calls beh b.
Proof. intros. unfold calls. apply map_app. Qed.

(* only calls are appended to the log *)
Lemma shrink_logs : forall E V W (P : property E V W) beh N, pure_property P beh ->
  (forall t cur s fin s', shrinkTree P N cur t s = Ok (fin, s') -> exists l, lg s' = lg s ++ calls beh l) /\
  (forall st cur c s fin s', shrinkStream P N cur c st s = Ok (fin, s') -> failures c = [] -> exists l, lg s' = lg s ++ calls beh l).
Proof.
  intros E V W P beh N HP. apply etree_ind3.
  - intros a shr IH cur s fin s' H. simpl in H. destruct (shr (rnd s)) as [[st r']| | |] eqn:Es; try discriminate.
    apply (IH _ _ _ Es _ _ _ _ _ H eq_refl).
  - intros cur c s fin s' H Hc. simpl in H. inversion H; subst. exists []. rewrite app_nil_r. auto.
  - intros h tl IHh IHtl cur c s fin s' H Hc. simpl in H. destruct (tl (rnd s)) as [[st' r']| | |] eqn:Es; try discriminate.
    apply bind_ok in H. destruct H as [[[b c'] s2] [Ht H]].
    destruct (test_pure _ _ _ _ _ _ _ _ _ _ _ _ _ HP Hc Ht) as [Hs2 Hb]. subst s2.
    destruct (negb b || hasFailures c').
    + destruct (IHh _ _ _ _ H) as [l Hl]. eexists (_ :: l). rewrite Hl. simpl. rewrite <- app_assoc. reflexivity.
    + destruct Hb as [_ Hc']. destruct (IHtl _ _ _ Es _ _ _ _ _ H Hc') as [l Hl]. eexists (_ :: l). rewrite Hl. simpl. rewrite <- app_assoc. reflexivity.
Qed.

(* trees whose shrinks do not use the engine are searched as [scan] says *)
Lemma tree_scan : forall E V W (P : property E V W) beh N, pure_property P beh ->
  forall t cur s fin s', shrinkTree P N cur (elift t) s = Ok (fin, s') -> nth_error cur N = Some (elift t) ->
  exists tried found, scan (fun a => bad beh (set_nth N a (map eroot cur))) (shrinks t) tried found /\
    fin = set_nth N (elift (ending t found)) cur /\ lg s' = lg s ++ calls beh (map (fun a => set_nth N a (map eroot cur)) tried).
Proof.
  intros E V W P beh N HP. induction t as [a ts IH] using tree_ind'. intros cur s fin s' H Hn. rewrite elift_eq in H. simpl in H. unfold gret in H.
  cbn [shrinks]. revert H. set (s0 := with_rnd (rnd s) s). change (lg s) with (lg s0). clearbody s0. clear s.
  assert (Hc : failures newctx = []) by reflexivity. revert Hc. generalize newctx. revert s0.
  assert (HN : (N < length cur)%nat) by (eapply nth_error_lt; eauto).
  assert (Hend : forall found, ending (Node a ts) found = match found with Some u => u | None => Node a ts end) by auto.
  setoid_rewrite Hend. clear Hend. revert Hn. generalize (Node a ts) at 1 2. intros t0 Hn.
  induction IH as [|t ts Ht Hts IHts]; intros s0 c Hc H; simpl in H.
  - inversion H; subst. exists [], None. split; [constructor|]. split; [symmetry; apply set_nth_same; auto|]. rewrite app_nil_r. auto.
  - apply bind_ok in H. destruct H as [[[b c'] s2] [H1 H2]]. rewrite elift_root in H1.
    destruct (test_pure _ _ _ _ _ _ _ _ _ _ _ _ _ HP Hc H1) as [Hs2 Hb]. destruct (negb b || hasFailures c').
    + destruct (Ht _ _ _ _ H2) as [tried [found [S1 [S2 S3]]]]; [apply set_nth_at; auto|].
      exists (root t :: tried), (Some (match found with Some u => u | None => t end)). split; [|split].
      * apply scan_fail; auto. rewrite set_nth_map in S1.
        assert (G : forall cs tr fo, scan (fun x => bad beh (set_nth N x (set_nth N (eroot (elift (E := E) t)) (map eroot cur)))) cs tr fo ->
          scan (fun x => bad beh (set_nth N x (map eroot cur))) cs tr fo).
        { clear. intros cs tr fo Hs. induction Hs as [|? ? ? ? Hx|? ? ? ? Hx]; [apply scan_end|apply scan_pass; auto|apply scan_fail; auto]; rewrite set_nth_twice in Hx; auto. }
        apply G. auto.
      * rewrite set_nth_twice in S2. exact S2.
      * rewrite S3, Hs2. simpl. rewrite <- app_assoc. simpl. do 2 f_equal. apply f_equal. apply map_ext. intros x.
        rewrite set_nth_map, set_nth_twice. auto.
    + destruct Hb as [Hb Hc']. destruct (IHts s2 c' Hc' H2) as [tried [found [S1 [S2 S3]]]].
      exists (root t :: tried), found. split; [apply scan_pass; auto|]. split; auto. rewrite S3, Hs2. simpl. rewrite <- app_assoc. auto.
Qed.

Lemma stream_scan : forall E V W (P : property E V W) beh N, pure_property P beh ->
  forall t cur s fin s', shrinkStream P N cur newctx (elist (shrinks t)) s = Ok (fin, s') -> nth_error cur N = Some (elift t) ->
  exists tried found, scan (fun a => bad beh (set_nth N a (map eroot cur))) (shrinks t) tried found /\
    fin = set_nth N (elift (ending t found)) cur /\ lg s' = lg s ++ calls beh (map (fun a => set_nth N a (map eroot cur)) tried).
Proof.
  intros E V W P beh N HP t cur s fin s' H Hn. eapply tree_scan; eauto. rewrite elift_eq. simpl. unfold gret.
  replace (with_rnd (rnd s) s) with s; auto. destruct s; auto.
Qed.

Lemma linked_lift : forall E V (streams : list (estream E V)) cur N t, linked_to streams cur N -> nth_error cur N = Some (elift t) ->
  nth_error streams N = Some (elist (shrinks t)).
Proof.
  intros E V streams cur N t [t' [st [r [r1 [L1 [L2 L3]]]]]] H. assert (t' = elift t) by congruence. subst t'. rewrite elift_eq in L3. simpl in L3. inversion L3; subst. auto.
Qed.

Lemma scan_base : forall V (beh : list V -> list op * ures) N b b' cs tried found, (forall x, set_nth N x b = set_nth N x b') ->
  scan (fun a => bad beh (set_nth N a b)) cs tried found -> scan (fun a => bad beh (set_nth N a b')) cs tried found.
Proof. intros V beh N b b' cs tried found H Hs. induction Hs as [|? ? ? ? Hx|? ? ? ? Hx]; [apply scan_end|apply scan_pass; auto|apply scan_fail; auto]; rewrite H in Hx; auto. Qed.

Lemma map_partly : forall X Y (f : X -> Y) d (fin ini : list X), length fin = length ini -> map f (partly d fin ini) = partly d (map f fin) (map f ini).
Proof.
  intros. apply nth_error_ext. intros j. rewrite nth_error_map, !partly_nth by (rewrite ?map_length; auto). rewrite !nth_error_map.
  destruct (existsb (Nat.eqb j) d); auto.
Qed.

Lemma shrinkEach_scan : forall E V W (P : property E V W) beh, pure_property P beh ->
  forall ord streams cur s fin s', shrinkEach P ord streams cur s = Ok (fin, s') -> NoDup ord -> (forall N, In N ord -> linked_to streams cur N) ->
  exists logs, length logs = length ord /\ lg s' = lg s ++ calls beh (concat logs) /\
  forall o1 N o2 t, ord = o1 ++ N :: o2 -> nth_error cur N = Some (elift t) -> exists tried found,
    scan (fun a => bad beh (set_nth N a (map eroot (partly o1 fin cur)))) (shrinks t) tried found /\
    nth_error fin N = Some (elift (ending t found)) /\
    nth_error logs (length o1) = Some (map (fun a => set_nth N a (map eroot (partly o1 fin cur))) tried).
Proof.
  intros E V W P beh HP. induction ord as [|N ord IH]; intros streams cur s fin s' H Hnd Hl.
  { simpl in H. inversion H; subst. exists []. split; auto. split; [rewrite app_nil_r; auto|]. intros [|? ?] N o2 t Ho; discriminate. }
  pose proof (shrinkEach_pure _ _ _ _ _ HP _ _ _ _ _ _ H Hnd Hl) as [Flen _]. simpl in H.
  destruct (Hl N (or_introl eq_refl)) as [t [st [r [r1 [L1 [L2 L3]]]]]]. rewrite L2 in H.
  apply bind_ok in H. destruct H as [[cur' s1] [H1 H2]]. inversion Hnd as [|? ? Hni Hnd']; subst.
  assert (HN : (N < length cur)%nat) by (eapply nth_error_lt; eauto).
  destruct (proj2 (shrink_logs E V W P beh N HP) _ _ _ _ _ _ H1 eq_refl) as [l Hlg].
  destruct (proj2 (shrink_pure E V W P beh N HP) _ _ _ _ _ _ H1 eq_refl HN) as [_ Hcase].
  assert (Hcur : exists t', cur' = set_nth N t' cur).
  { destruct Hcase as [[-> _]|[h [t' [_ [_ [-> _]]]]]]; [exists t; symmetry; apply set_nth_same; auto|eauto]. }
  destruct Hcur as [t1 Ec].
  assert (Hlen : length cur' = length cur) by (rewrite Ec; apply set_nth_len).
  assert (Hoth : forall j, j <> N -> nth_error cur' j = nth_error cur j) by (intros; rewrite Ec; apply set_nth_other; auto).
  assert (Hat : nth_error cur' N = Some t1) by (rewrite Ec; apply set_nth_at; auto).
  assert (Hl' : forall M, In M ord -> linked_to streams cur' M).
  { intros M HM. destruct (Hl M (or_intror HM)) as [tM [stM [rM [rM1 [M1 [M2 M3]]]]]]. exists tM, stM, rM, rM1. rewrite Hoth by congruence. auto. }
  destruct (IH streams cur' s1 fin s' H2 Hnd' Hl') as [logs [G1 [G2 G3]]].
  pose proof (shrinkEach_pure _ _ _ _ _ HP _ _ _ _ _ _ H2 Hnd' Hl') as [_ [_ [_ [I4 _]]]].
  assert (HfN : nth_error fin N = Some t1) by (rewrite I4; auto).
  exists (l :: logs). split; [simpl; auto|]. split; [rewrite G2, Hlg; simpl; rewrite calls_app, app_assoc; auto|].
  intros o1 M o2 u Ho Hu. destruct o1 as [|q o1]; simpl in Ho; inversion Ho; subst.
  - assert (Hst : st = elist (shrinks u)) by (rewrite (linked_lift _ _ _ _ _ _ (Hl M (or_introl eq_refl)) Hu) in L2; congruence). subst st.
    destruct (stream_scan _ _ _ _ _ _ HP _ _ _ _ _ H1 Hu) as [tried [found [S1 [S2 S3]]]].
    assert (Hp : partly [] fin cur = cur) by (apply nth_error_ext; intros j; rewrite partly_nth by auto; auto).
    rewrite Hp. exists tried, found. split; auto. split.
    + rewrite HfN. rewrite S2 in Hat. rewrite set_nth_at in Hat by auto. congruence.
    + simpl. f_equal. rewrite Hlg in S3. apply app_inv_head in S3.
      assert (Hinj : forall a b : list (list V), calls beh a = calls beh b -> a = b).
      { clear. induction a as [|x a IHa]; intros [|y b] Hab; try discriminate; auto. inversion Hab. f_equal. auto. }
      auto.
  - assert (Hm : nth_error (set_nth q t1 cur) M = Some (elift u)).
    { rewrite Hoth; auto. intros ->. apply Hni. apply in_or_app. right. left. auto. }
    destruct (G3 o1 M o2 u eq_refl Hm) as [tried [found [S1 [S2 S3]]]].
    assert (Hb : partly (q :: o1) fin cur = partly o1 fin (set_nth q t1 cur)).
    { apply nth_error_ext. intros j. rewrite !partly_nth by (rewrite ?set_nth_len in *; congruence).
      simpl. destruct (Nat.eqb_spec j q) as [->|Hj]; simpl.
      + destruct (existsb (Nat.eqb q) o1); auto.
      + destruct (existsb (Nat.eqb j) o1); auto. symmetry. auto. }
    rewrite Hb. exists tried, found. auto.
Qed.

(* mapping *)
Lemma scan_map : forall A B (h : A -> B) fails cs tried found, scan fails (map (map_tree h) cs) tried found ->
  exists tried' found', scan (fun a => fails (h a)) cs tried' found' /\ tried = map h tried' /\ found = option_map (map_tree h) found'.
Proof.
  intros A B h fails cs tried found H. remember (map (map_tree h) cs) as ds eqn:Hd. revert cs Hd.
  induction H as [|c ds tried found Hp Hs IH|c ds tried found Hf Hs IH]; intros [|d cs] Hd; simpl in Hd; inversion Hd; subst.
  - exists [], None. split; [constructor|auto].
  - rewrite root_map in *. destruct (IH cs eq_refl) as [tr [fo [S1 [-> ->]]]]. exists (root d :: tr), fo. split; [apply scan_pass; auto|auto].
  - rewrite root_map in *. rewrite shrinks_map in IH. destruct (IH (shrinks d) eq_refl) as [tr [fo [S1 [-> ->]]]].
    exists (root d :: tr), (Some (match fo with Some u => u | None => d end)). split; [apply scan_fail; auto|]. split; auto. destruct fo; auto.
Qed.

Lemma ending_map : forall A B (h : A -> B) t found, ending (map_tree h t) (option_map (map_tree h) found) = map_tree h (ending t found).
Proof. intros A B h t [u|]; auto. Qed.

(* bisection *)
Local Open Scope Z_scope.

Lemma gp_tries : forall fails f k min max tried found, scan fails (gp f min max) tried found ->
  0 <= min < max -> max - min <= 2 ^ Z.of_nat k -> (length tried <= k)%nat.
Proof.
  intros fails. induction f as [|f IH]; intros k min max tried found H Hm Hk.
  - inversion H; subst. simpl. lia.
  - rewrite gp_S in H. destruct (Z.geb_spec (min + 1) max); [inversion H; simpl; lia|].
    destruct k as [|k]; [change (2 ^ Z.of_nat 0) with 1 in Hk; lia|]. rewrite pow_S in Hk.
    destruct (Z.geb_spec (min + 2) max).
    + inversion H as [|? ? ? ? ? Hs|? ? ? ? ? Hs]; subst; simpl in Hs; inversion Hs; subst; simpl; lia.
    + destruct (half_bounds min max) as [? [? ?]]; [lia|].
      inversion H as [|? ? ? ? ? Hs|? ? ? ? ? Hs]; subst; cbn [shrinks] in Hs; cbn [length]; apply le_n_S.
      * eapply IH; eauto; lia.
      * eapply IH; eauto; lia.
Qed.

Lemma gp_finds : forall fails f min max tried found, scan fails (gp (S f) min max) tried found ->
  0 <= min < max -> max - min <= 2 ^ Z.of_nat f -> (forall x y, min < x <= y -> y < max -> fails x -> fails y) ->
  match found with
  | None => forall x, min < x < max -> ~ fails x
  | Some u => min < root u < max /\ fails (root u) /\ forall x, min < x < root u -> ~ fails x
  end.
Proof.
  intros fails. induction f as [|f IH]; intros min max tried found H Hm Hk Hmono.
  - change (2 ^ Z.of_nat 0) with 1 in Hk. rewrite gp_S in H. destruct (Z.geb_spec (min + 1) max); [|lia]. inversion H; subst. intros. lia.
  - rewrite pow_S in Hk. rewrite gp_S in H. destruct (Z.geb_spec (min + 1) max); [inversion H; subst; intros; lia|].
    destruct (Z.geb_spec (min + 2) max).
    + assert (Hmid : (min + max) / 2 = min + 1) by (Z.div_mod_to_equations; lia). rewrite Hmid in H.
      inversion H as [|? ? ? ? Hp Hs|? ? ? ? Hf Hs]; subst; simpl in *; inversion Hs; subst; simpl in *.
      * intros x Hx. replace x with (min + 1) by lia. auto.
      * split; [lia|]. split; auto. intros. lia.
    + destruct (half_bounds min max) as [Hb [? ?]]; [lia|]. set (mid := (min + max) / 2) in *.
      inversion H as [|? ? ? ? Hp Hs|? ? ? ? Hf Hs]; subst; cbn [shrinks root] in *.
      * apply IH in Hs; [|lia|lia|intros x y ? ? ?; apply (Hmono x y); auto; lia].
        assert (Hlow : forall x, min < x <= mid -> ~ fails x) by (intros x Hx Hf; apply Hp; apply (Hmono x mid); auto; lia).
        destruct found as [u|].
        -- destruct Hs as [S1 [S2 S3]]. split; [lia|]. split; auto. intros x Hx. destruct (Z_le_gt_dec x mid); [apply Hlow; lia|apply S3; lia].
        -- intros x Hx. destruct (Z_le_gt_dec x mid); [apply Hlow; lia|apply Hs; lia].
      * apply IH in Hs; [|lia|lia|intros x y ? ? ?; apply (Hmono x y); auto; lia].
        match goal with |- context [match ?fo with Some _ => _ | None => _ end] => destruct fo as [u|] end; cbn [root].
        -- destruct Hs as [S1 [S2 S3]]. split; [lia|]. split; auto.
        -- split; [lia|]. split; auto.
Qed.

Lemma bs_tries : forall fails v k tried found, scan fails (shrinks (bs_abs v)) tried found -> 0 <= v <= 2 ^ Z.of_nat k -> (length tried <= S k)%nat.
Proof.
  intros fails v k tried found H Hv. unfold bs_abs in H. destruct (Z.eqb_spec v 0); cbn [shrinks] in H; [inversion H; simpl; lia|].
  inversion H as [|? ? ? ? Hp Hs|? ? ? ? Hf Hs]; subst; cbn [length]; apply le_n_S.
  - eapply gp_tries; eauto; lia.
  - cbn [shrinks] in Hs. inversion Hs. simpl. lia.
Qed.

Local Transparent bs_fuel.
Lemma bs_fuel_eq : bs_fuel = S 64.
Proof. reflexivity. Qed.
Local Opaque bs_fuel.

Lemma bs_finds : forall fails v tried found, scan fails (shrinks (bs_abs v)) tried found -> 0 <= v <= UINT64_MAX ->
  fails v -> (forall x y, 0 <= x <= y -> y <= v -> fails x -> fails y) ->
  let k := root (ending (bs_abs v) found) in 0 <= k <= v /\ fails k /\ forall x, 0 <= x < k -> ~ fails x.
Proof.
  intros fails v tried found H Hv Hfv Hmono. unfold bs_abs in *. destruct (Z.eqb_spec v 0); cbn [shrinks] in H.
  - inversion H; subst. simpl. split; [lia|]. split; auto. intros. lia.
  - inversion H as [|? ? ? ? Hp Hs|? ? ? ? Hf Hs]; subst; cbn [root shrinks] in *.
    + rewrite bs_fuel_eq in Hs. apply gp_finds in Hs; [|lia|change (2 ^ Z.of_nat 64) with 18446744073709551616; unfold UINT64_MAX in Hv; lia|intros x y ? ? ?; apply (Hmono x y); auto; lia].
      destruct found as [u|]; cbn [ending root].
      * destruct Hs as [S1 [S2 S3]]. split; [lia|]. split; auto. intros x Hx. destruct (Z.eq_dec x 0) as [->|]; auto. apply S3. lia.
      * split; [lia|]. split; auto. intros x Hx. destruct (Z.eq_dec x 0) as [->|]; auto. apply Hs. lia.
    + inversion Hs; subst. cbn [ending root]. split; [lia|]. split; auto. intros. lia.
Qed.

(* the shape of generated integers *)
Lemma bs_abs_root : forall v, root (bs_abs v) = v.
Proof. intros. unfold bs_abs. destruct (Z.eqb_spec v 0); auto. Qed.

Lemma map_bs_ext : forall B (f g : Z -> B) v, 0 <= v <= UINT64_MAX -> (forall x, 0 <= x <= v -> f x = g x) -> map_tree f (bs_abs v) = map_tree g (bs_abs v).
Proof.
  intros B f g v Hv H. apply map_tree_ext. intros a Ha. apply H. apply (Permutation_in _ (bs_abs_values v Hv)) in Ha.
  destruct Ha as [<-|Ha]; [lia|]. apply zrange_In in Ha. lia.
Qed.

Lemma gi_shape_tail : forall E ty min max value (r : rst E),
  tmin ty <= min -> max <= tmax ty -> min <= value <= max -> 
  (if (value <? min) || (max <? value) then gfail (Throw ERuntime)
  else if 0 <=? min then
    gbind (gfail (arith ty (value - min))) (fun d =>
    gbind (gfail (binarySearchU (wrapU 64 (castT ty d)))) (fun t =>
    gret (map_tree (plusFunctor ty min) t)))
  else if max <=? 0 then
    gbind (gfail (arith ty (value - max))) (fun d =>
    gbind (gfail (binarySearch (wrapS 64 (castT ty d)))) (fun t =>
    gret (map_tree (plusFunctor ty max) t)))
  else
    gbind (gfail (binarySearch (wrapS 64 value))) (fun t =>
    gret (map_tree (castT ty) t))) r =
  Ok (map_tree (fun x => if nearest_zero min max <=? value then nearest_zero min max + x else nearest_zero min max - x)
        (bs_abs (Z.abs (value - nearest_zero min max))), r).
Proof.
  intros E ty min max value r Hmin Hmax Hv.
  destruct (Z.ltb_spec value min); [lia|]. destruct (Z.ltb_spec max value); [lia|]. cbn [orb].
  pose proof (tmin_64 ty). pose proof (tmax_64 ty).
  destruct (Z.leb_spec 0 min) as [Hm0|Hm0].
  - assert (Ha : arith ty (value - min) = Ok (value - min)).
    { assert (0 <= value - min <= tmax ty) by lia. unfold arith, tmin, tmax in *.
      destruct ty; cbn in *;
      repeat match goal with |- context [if ?b then _ else _] => destruct b eqn:? end; auto;
      try (f_equal; apply Z.mod_small; lia);
      rewrite ?andb_false_iff, ?Z.leb_gt in *; lia. }
    unfold gbind, gfail. rewrite Ha. rewrite castT_small; [|unfold tmin, tmax in *; destruct ty; cbn in *; lia].
    rewrite wrapU_small; [|unfold UINT64_MAX in *; lia].
    rewrite binarySearchU_ok by (unfold in_uint64; lia). unfold gret.
    assert (Hn : nearest_zero min max = min) by (unfold nearest_zero; lia). rewrite Hn.
    rewrite Z.abs_eq by lia. destruct (Z.leb_spec min value); [|lia]. do 2 f_equal.
    apply map_bs_ext; [lia|]. intros x Hx. rewrite plusFunctor_ok by lia. lia.
  - assert (Hsg : is_signed ty = true).
    { destruct (is_signed ty) eqn:Es; auto. unfold tmin in Hmin. rewrite Es in Hmin. lia. }
    pose proof (tmax_s64 ty Hsg).
    destruct (Z.leb_spec max 0) as [Hx0|Hx0].
    + assert (Ha : arith ty (value - max) = Ok (value - max)).
      { assert (tmin ty <= value - max <= 0) by lia. unfold arith, tmin, tmax in *.
        destruct ty; try discriminate; cbn in *;
        repeat match goal with |- context [if ?b then _ else _] => destruct b eqn:? end; auto;
        rewrite ?andb_false_iff, ?Z.leb_gt in *; lia. }
      unfold gbind, gfail. rewrite Ha. rewrite castT_small; [|unfold tmin, tmax in *; destruct ty; cbn in *; lia].
      rewrite wrapS_small; [|lia|unfold INT64_MIN in *; simpl; lia].
      rewrite binarySearch_neg by (unfold INT64_MIN in *; lia). unfold gret.
      assert (Hn : nearest_zero min max = max) by (unfold nearest_zero; lia). rewrite Hn.
      replace (Z.abs (value - max)) with (- (value - max)) by lia. do 2 f_equal. rewrite map_tree_comp.
      apply map_bs_ext; [unfold INT64_MIN, UINT64_MAX in *; lia|]. intros x Hx. rewrite plusFunctor_ok by (unfold tmax, INT64_MIN in *; destruct ty; cbn in *; lia).
      destruct (Z.leb_spec max value); lia.
    + unfold gbind, gfail. rewrite wrapS_small; [|lia|unfold INT64_MIN, INT64_MAX in *; simpl; lia].
      assert (Hn : nearest_zero min max = 0) by (unfold nearest_zero; lia). rewrite Hn. rewrite Z.sub_0_r.
      destruct (Z.leb_spec 0 value).
      * rewrite binarySearch_pos by lia. unfold gret. rewrite Z.abs_eq by lia. do 2 f_equal.
        apply map_bs_ext; [unfold INT64_MAX, UINT64_MAX in *; lia|]. intros x Hx. rewrite castT_small by lia. lia.
      * rewrite binarySearch_neg by lia. unfold gret. rewrite Z.abs_neq by lia. do 2 f_equal. rewrite map_tree_comp.
        apply map_bs_ext; [unfold INT64_MIN, UINT64_MAX in *; lia|]. intros x Hx. rewrite castT_small by lia. lia.
Qed.

Lemma generateInteger_shape : forall E ty min max (r : rst E) t r', usable ty min max -> generateInteger ty min max r = Ok (t, r') ->
  exists v, min <= v <= max /\ t = map_tree (fun x => if nearest_zero min max <=? v then nearest_zero min max + x else nearest_zero min max - x)
        (bs_abs (Z.abs (v - nearest_zero min max))).
Proof.
  intros E ty min max r t r' [H1 [H2 [H3 Hc]]] H. unfold generateInteger in H.
  destruct ((min =? tmin ty) && (max =? tmax ty)) eqn:Eb.
  - apply andb_true_iff in Eb. rewrite !Z.eqb_eq in Eb. destruct Eb as [E1 E2].
    unfold gbind at 1 in H. destruct (half_bool E r) as [b [r1 Eh]]. rewrite Eh in H. destruct b.
    + unfold gbind at 1 in H. destruct (boundary_draw E ty r1) as [v [r2 [Ed Hin]]]. rewrite Ed in H.
      apply boundary_range in Hin. rewrite gi_shape_tail in H by lia. inversion H; subst t r'. exists v. split; [lia|auto].
    + unfold gbind at 1 in H. destruct (getRandomT_ok E ty min max r1) as [v [r2 [Ed Hin]]]; auto. rewrite Ed in H.
      rewrite gi_shape_tail in H by lia. inversion H; subst t r'. exists v. split; [lia|auto].
  - unfold gbind at 1 in H. unfold gret at 1 in H. unfold gbind at 1 in H.
    destruct (getRandomT_ok E ty min max r) as [v [r2 [Ed Hin]]]; auto. rewrite Ed in H.
    rewrite gi_shape_tail in H by lia. inversion H; subst t r'. exists v. split; [lia|auto].
Qed.

Lemma integer_scan : forall E ty min max (r : rst E) t r' fails tried found, usable ty min max -> generateInteger ty min max r = Ok (t, r') ->
  scan fails (shrinks t) tried found ->
  (forall k, max - min <= 2 ^ Z.of_nat k -> (length tried <= S k)%nat) /\
  (fails (root t) -> monotone fails (nearest_zero min max) (root t) ->
   boundary fails (nearest_zero min max) (root t) (root (ending t found))).
Proof.
  intros E ty min max r t r' fails tried found Hu H Hs. pose proof Hu as [U1 [U2 [U3 U4]]].
  destruct (generateInteger_shape _ _ _ _ _ _ _ Hu H) as [v [Hv ->]].
  set (c := nearest_zero min max) in *. set (h := fun x => if c <=? v then c + x else c - x) in *.
  assert (Hc : min <= c <= max) by (unfold c, nearest_zero; lia).
  set (d := Z.abs (v - c)) in *.
  assert (Hroot : root (map_tree h (bs_abs d)) = v) by (rewrite root_map, bs_abs_root; unfold h, d; destruct (Z.leb_spec c v); lia).
  rewrite shrinks_map in Hs. apply scan_map in Hs. destruct Hs as [tr [fo [Hs [-> ->]]]]. split.
  - intros k Hk. rewrite map_length. eapply bs_tries; eauto. unfold d. lia.
  - intros Hf Hm. rewrite Hroot in *. rewrite ending_map, root_map.
    assert (Hd : 0 <= d <= UINT64_MAX).
    { pose proof (tmin_64 ty). pose proof (tmax_64 ty). unfold d, c, nearest_zero, INT64_MIN, UINT64_MAX in *.
      split; [lia|]. destruct (is_signed ty) eqn:Es; [pose proof (tmax_s64 ty Es); unfold INT64_MAX in *; lia|]. unfold tmin in U1. rewrite Es in U1. lia. }
    assert (Hway : forall x, 0 <= x <= d -> on_way c v (h x) /\ Z.abs (h x - c) = x).
    { intros x Hx. unfold on_way, h, d in *. destruct (Z.leb_spec c v); lia. }
    assert (Hhd : h d = v) by (unfold h, d; destruct (Z.leb_spec c v); lia).
    assert (Hmono : forall x y, 0 <= x <= y -> y <= d -> fails (h x) -> fails (h y)).
    { intros x y Hxy Hy Hfx. destruct (Hway x ltac:(lia)) as [X1 X2]. destruct (Hway y ltac:(lia)) as [Y1 Y2].
      apply (Hm (h x) (h y)); auto. unfold nearer. lia. }
    destruct (bs_finds (fun x => fails (h x)) d tr fo Hs Hd) as [S1 [S2 S3]]; [rewrite Hhd; auto|auto|]. destruct (Hway _ S1) as [W1 W2]. split; [exact W1|]. split; [exact S2|]. intros x Hx Hlt. rewrite W2 in Hlt.
      assert (Hx' : x = h (Z.abs (x - c))) by (unfold on_way, h in *; destruct (Z.leb_spec c v); lia). rewrite Hx'. apply S3. lia.
Qed.

(* stages *)
Lemma shrinkEach_app : forall E V W (P : property E V W) o1 o2 streams cur s fin s', shrinkEach P (o1 ++ o2) streams cur s = Ok (fin, s') ->
  exists mid s1, shrinkEach P o1 streams cur s = Ok (mid, s1) /\ shrinkEach P o2 streams mid s1 = Ok (fin, s').
Proof.
  intros E V W P. induction o1 as [|N o1 IH]; intros o2 streams cur s fin s' H; simpl in *; [eauto|].
  destruct (nth_error streams N) as [st|]; [|discriminate]. apply bind_ok in H. destruct H as [[cur' s1] [H1 H2]].
  destruct (IH _ _ _ _ _ _ H2) as [mid [s2 [M1 M2]]]. exists mid, s2. split; auto. rewrite H1. simpl. auto.
Qed.

Lemma NoDup_app_l : forall X (a b : list X), NoDup (a ++ b) -> NoDup a.
Proof. induction a as [|x a IH]; intros b H; [constructor|]. inversion H; subst. constructor; [intro; apply H2; apply in_or_app; auto|eauto]. Qed.
Lemma NoDup_app_not : forall X (a b : list X) x, NoDup (a ++ b) -> In x b -> ~ In x a.
Proof. induction a as [|y a IH]; intros b x H Hx Hin; [auto|]. inversion H; subst. destruct Hin as [->|Hin]; [apply H2; apply in_or_app; auto|eapply IH; eauto]. Qed.
Lemma NoDup_app_r : forall X (a b : list X), NoDup (a ++ b) -> NoDup b.
Proof. induction a as [|x a IH]; intros b H; auto. inversion H; auto. Qed.

Lemma stage_bad : forall E V W (P : property E V W) beh, pure_property P beh ->
  forall o1 o2 streams cur s fin s', shrinkEach P (o1 ++ o2) streams cur s = Ok (fin, s') -> NoDup (o1 ++ o2) ->
  (forall i, In i (o1 ++ o2) <-> (i < length cur)%nat) -> (forall N, In N (o1 ++ o2) -> linked_to streams cur N) ->
  bad beh (map eroot cur) -> bad beh (map eroot (partly o1 fin cur)).
Proof.
  intros E V W P beh HP o1 o2 streams cur s fin s' H Hnd Hin Hl Hb. destruct (shrinkEach_app _ _ _ _ _ _ _ _ _ _ _ H) as [mid [s1 [H1 H2]]].
  destruct (shrinkEach_pure _ _ _ _ _ HP _ _ _ _ _ _ H1 (NoDup_app_l _ _ _ Hnd)) as [A1 [_ [A3 [A4 [A5 _]]]]].
  { intros N HN. apply Hl. apply in_or_app. auto. }
  destruct (shrinkEach_pure _ _ _ _ _ HP _ _ _ _ _ _ H2 (NoDup_app_r _ _ _ Hnd)) as [B1 [_ [_ [B4 _]]]].
  { intros N HN. destruct (Hl N) as [t [st [r [r1 [L1 [L2 L3]]]]]]; [apply in_or_app; auto|]. exists t, st, r, r1.
    rewrite A4 by (eapply NoDup_app_not; eauto). auto. }
  assert (Hmid : partly o1 fin cur = mid).
  { apply nth_error_ext. intros j. rewrite partly_nth by congruence. destruct (existsb (Nat.eqb j) o1) eqn:Ex.
    - apply existsb_in in Ex. apply B4. intro Hj. eapply NoDup_app_not; eauto.
    - symmetry. apply A4. intro Hj. apply existsb_in in Hj. congruence. }
  rewrite Hmid. destruct A3 as [->|A3]; auto.
Qed.
