(** The plans of the generators of numbers, bool, pairs, lists, and of the combinators. *)
From Coq Require Import List ZArith QArith Lia Lqa Bool SpecFloat Permutation.
From Verif Require Import Base TreeModel RandomModel ContainerModel ChanceSpec ChanceProof.
From Verif Require Import IntegralModel IntegralSpec BinSearchProof IntegralProof BoolModel BoolProof.
Import ListNotations.
Local Open Scope Q_scope.

(** ** Following a plan *)
Definition fits {E X A} (see : X -> A) (g : G E X) (p : plan A) : Prop := forall r, seen see (g r) = play p r.
Definition same {A} (a : A) : A := a.
Lemma seen_same : forall A S (x : res (A * S)), seen same x = x.
Proof. intros A S [[a s]| | |]; reflexivity. Qed.
Lemma fits_same : forall E A (g : G E A) p, (forall r, g r = play p r) -> fits same g p.
Proof. intros E A g p H r. rewrite seen_same. apply H. Qed.
Lemma fits_bind : forall E X Y A B (see1 : X -> A) (see2 : Y -> B) (I : X -> Prop) (g : G E X) (k : X -> G E Y) p kp,
  fits see1 g p -> (forall r x r', g r = Ok (x, r') -> I x) -> (forall x, I x -> fits see2 (k x) (kp (see1 x))) -> fits see2 (gbind g k) (pbind p kp).
Proof.
  intros E X Y A B see1 see2 I g k p kp Hg HI Hk r. rewrite play_bind. unfold gbind. rewrite <- (Hg r).
  destruct (g r) as [[x r']| | |] eqn:Eg; cbn [seen]; try reflexivity. apply Hk. eapply HI. exact Eg.
Qed.
Lemma fits_bind' : forall E X Y A B (see1 : X -> A) (see2 : Y -> B) (g : G E X) (k : X -> G E Y) p kp,
  fits see1 g p -> (forall x, fits see2 (k x) (kp (see1 x))) -> fits see2 (gbind g k) (pbind p kp).
Proof. intros E X Y A B see1 see2 g k p kp Hg Hk. apply (fits_bind _ _ _ _ _ see1 see2 (fun _ => True)); auto. Qed.
Lemma fits_ret : forall E X A (see : X -> A) x a, see x = a -> fits (E := E) see (gret x) (Ends (Ok a)).
Proof. intros E X A see x a <- r. reflexivity. Qed.
Lemma fits_fail : forall E X A (see : X -> A) x a, (exists y, x = Ok y /\ see y = a) -> fits (E := E) see (gfail x) (Ends (Ok a)).
Proof. intros E X A see x a (y & -> & <-) r. reflexivity. Qed.
Lemma fits_draw : forall E lo hi, fits (E := E) same (draw lo hi) (Draws lo hi (fun z => Ends (Ok z))).
Proof.
  intros E lo hi r. rewrite seen_same. unfold draw. cbn [play]. destruct (lo <=? hi)%Z; [|reflexivity]. destruct (unif E lo hi r). reflexivity.
Qed.

(** ** Coins *)
Lemma coin_plan : forall w k, (0 <= k <= UINT64_MAX)%Z -> (forall E (r : rst E), getRandomBool w r = (let '(u, r') := unif E 0 UINT64_MAX r in Ok ((u <=? k)%Z, r'))) ->
  (forall E (r : rst E), getRandomBool w r = play (Draws 0 UINT64_MAX (fun u => Ends (Ok (u <=? k)%Z))) r).
Proof. intros w k Hk H E r. rewrite H. cbn [play]. change (0 <=? UINT64_MAX)%Z with true. cbv iota. destruct (unif E 0 UINT64_MAX r). reflexivity. Qed.
Lemma coin_up_to : forall w k, (0 <= k <= UINT64_MAX)%Z -> (forall E (r : rst E), getRandomBool w r = (let '(u, r') := unif E 0 UINT64_MAX r in Ok ((u <=? k)%Z, r'))) -> coin w (odds k).
Proof.
  intros w k Hk H. exists (Draws 0 UINT64_MAX (fun u => Ends (Ok (u <=? k)%Z))). split; [apply coin_plan; auto|].
  unfold prob. cbn [mean]. change (0 <=? UINT64_MAX)%Z with true. cbv iota.
  assert (B : forall a b, average 0 UINT64_MAX (fun z => if (z <=? k)%Z then a else b) == a * odds k + b * (1 - odds k)).
  { intros a b. rewrite average_below by exact Hk. change (UINT64_MAX + 1)%Z with (2 ^ 64)%Z. reflexivity. }
  split.
  - rewrite (average_ext _ _ _ (fun z => if (z <=? k)%Z then 1 else 0)); [rewrite B; ring|]. intros z _. cbn [when]. destruct (z <=? k)%Z; reflexivity.
  - rewrite (average_ext _ _ _ (fun z => if (z <=? k)%Z then 0 else 1)); [rewrite B; ring|]. intros z _. cbn [when]. destruct (z <=? k)%Z; reflexivity.
Qed.
Lemma coin_proper : forall w m e, proper_threshold w m e -> coin w (odds (Zpos m * 2 ^ 64 / 2 ^ (- e))).
Proof. intros w m e H. apply coin_up_to; [apply (lim_exact w m e H)|]. intros E r. apply coin_exact, H. Qed.
Lemma coin_one : coin d_one 1.
Proof. exists (Ends (Ok true)). split; [reflexivity|]. unfold prob. cbn. split; ring. Qed.
Lemma coin_zero : coin d_zero (odds 0).
Proof.
  apply coin_up_to; [unfold UINT64_MAX; lia|]. intros E r. unfold getRandomBool. change (SFeqb d_zero d_one) with false. cbv iota.
  unfold gbind, next8U, draw. change (0 <=? UINT64_MAX)%Z with true. cbv iota. destruct (unif E 0 UINT64_MAX r) as [u r']. reflexivity.
Qed.
Lemma coin_half : coin d_half (odds (2 ^ 63)).
Proof.
  apply coin_up_to; [unfold UINT64_MAX; lia|]. intros E r. unfold getRandomBool. change (SFeqb d_half d_one) with false. cbv iota.
  unfold gbind, next8U, draw. change (0 <=? UINT64_MAX)%Z with true. cbv iota. destruct (unif E 0 UINT64_MAX r) as [u r']. rewrite half_lim. reflexivity.
Qed.
(** A result chosen by a coin. *)
Lemma prob_coin : forall A (pc : plan bool) c (p1 p2 : plan A) f, prob pc (fun b => b) == c -> prob pc negb == 1 - c ->
  mean (pbind pc (fun b => if b then p1 else p2)) f == c * mean p1 f + (1 - c) * mean p2 f.
Proof.
  intros A pc c p1 p2 f H1 H2. rewrite mean_bind.
  assert (E : forall x : bool, (if x then mean p1 f else mean p2 f) == mean p1 f * (if x then 1 else 0) + mean p2 f * (if negb x then 1 else 0)).
  { intros [|]; cbn; ring. }
  assert (T : prob pc (fun b => b) + prob pc negb == 1) by (rewrite H1, H2; ring).
  assert (O : forall g : res bool -> Q, mean pc (fun x => match x with Ok _ => 0 | _ => g x end) == 0).
  { intros g. clear - T. unfold prob in T. rewrite <- mean_plus in T. revert T. generalize pc. clear pc.
    assert (S0 : forall n (u v : nat -> Q), (forall i, 0 <= u i <= 1) -> sum n u == inject_Z (Z.of_nat n) -> (forall i, (i < n)%nat -> u i == 1 -> v i == 0) -> sum n v == 0).
    { clear. induction n as [|n IH]; intros u v Hu Hs Hv; cbn [sum] in *; [reflexivity|].
      assert (B : forall m, sum m u <= inject_Z (Z.of_nat m)).
      { clear - Hu. induction m as [|m IH]; cbn [sum]; [change (inject_Z (Z.of_nat 0)) with 0; lra|]. specialize (Hu m). rewrite Nat2Z.inj_succ. unfold Z.succ. rewrite inject_Z_plus. change (inject_Z 1) with 1. lra. }
      pose proof (B n) as Bn. pose proof (Hu n) as Un. rewrite Nat2Z.inj_succ in Hs. unfold Z.succ in Hs. rewrite inject_Z_plus in Hs. change (inject_Z 1) with 1 in Hs.
      rewrite (IH u v), (Hv n); [ring|lia|lra|exact Hu|lra|]. intros i Hi. apply Hv. lia. }
    assert (R : forall p : plan bool, 0 <= mean p (fun x => when (fun b => b) x + when negb x) <= 1).
    { intros p. assert (X : mean p (fun x => when (fun b => b) x + when negb x) == prob p (fun _ => true)).
      { apply mean_ext. intros [[|]| | |]; cbn; reflexivity. } rewrite X. apply prob_range. }
    intros pc. induction pc as [x|lo hi k IH]; cbn [mean].
    - destruct x; cbn [when]; intros T; try reflexivity; exfalso; lra.
    - destruct (Z.leb_spec lo hi) as [L|L]; [|cbn [when]; intros T; exfalso; lra]. intros T. unfold average in *.
      assert (W : 0 < inject_Z (hi - lo + 1)) by (change 0 with (inject_Z 0); rewrite <- Zlt_Qlt; lia).
      rewrite (S0 _ (fun i => mean (k (lo + Z.of_nat i)%Z) (fun x => when (fun b => b) x + when negb x))).
      + unfold Qdiv. ring.
      + intros i. apply R.
      + rewrite Z2Nat.id by lia. apply (Qmult_inj_r _ _ (/ inject_Z (hi - lo + 1))); [apply Qnot_eq_sym, Qlt_not_eq, Qinv_lt_0_compat, W|].
        unfold Qdiv in T. rewrite T. field. apply Qnot_eq_sym, Qlt_not_eq, W.
      + intros i _ Hi. apply IH, Hi. }
  rewrite (mean_ext _ _ _ (fun x => (mean p1 f * when (fun b => b) x + mean p2 f * when negb x) + (match x with Ok _ => 0 | _ => (fun y => over f (fun _ => 0) y) x end))).
  - rewrite mean_plus, O, mean_plus, !mean_scale. fold (prob pc (fun b => b)) (prob pc negb). rewrite H1, H2. ring.
  - intros [[|]| | |]; cbn; ring.
Qed.

(** ** Numbers *)
Lemma average_shift : forall lo hi d f, average (lo + d) (hi + d) f == average lo hi (fun z => f (z + d)%Z).
Proof.
  intros lo hi d f. unfold average. replace (hi + d - (lo + d) + 1)%Z with (hi - lo + 1)%Z by lia.
  rewrite (sum_ext _ _ (fun i => f (lo + Z.of_nat i + d)%Z)); [reflexivity|]. intros i _. replace (lo + d + Z.of_nat i)%Z with (lo + Z.of_nat i + d)%Z by lia. reflexivity.
Qed.
Definition picked (ty : ity) (min max : Z) : plan Z :=
  match ty with
  | TChar => Draws (wrapU 8 min) (wrapU 8 max) (fun u => Ends (Ok (castT TChar u)))
  | _ => Draws (castT ty min) (castT ty max) (fun u => Ends (Ok (castT ty u)))
  end.
Lemma picked_fits : forall E ty min max, fits (E := E) same (getRandomT ty min max) (picked ty min max).
Proof.
  intros E ty min max. assert (G : forall a b (f : Z -> Z), fits (E := E) same (gbind (draw a b) (fun u => gret (f u))) (Draws a b (fun u => Ends (Ok (f u))))).
  { intros a b f. apply (fits_bind' _ _ _ _ _ same same _ _ (Draws a b (fun z => Ends (Ok z))) (fun u => Ends (Ok (f u)))); [apply fits_draw|]. intros x. apply fits_ret. reflexivity. }
  destruct ty; apply G.
Qed.
Lemma picked_prob : forall ty min max ev, (tmin ty <= min)%Z -> (min <= max)%Z -> (max <= tmax ty)%Z -> ~ reversed_char ty min max ->
  prob (picked ty min max) ev == average min max (tells ev).
Proof.
  intros ty min max ev H1 H2 H3 Hc.
  assert (G : prob (Draws (castT ty min) (castT ty max) (fun u => Ends (Ok (castT ty u)))) ev == average min max (tells ev)).
  { rewrite !castT_small by lia. unfold prob. cbn [mean]. rewrite (proj2 (Z.leb_le min max) H2). apply average_ext. intros z Hz. cbn [when]. rewrite castT_small by lia. reflexivity. }
  destruct ty; try exact G. clear G. cbn [picked]. unfold reversed_char in Hc.
  change (tmin TChar) with (-128)%Z in *. change (tmax TChar) with 127%Z in *.
  assert (Hcase : (0 <= min \/ max < 0)%Z) by (destruct (Z_lt_le_dec max 0); [lia|]; destruct (Z_lt_le_dec min 0); [exfalso; apply Hc; auto|lia]).
  assert (C : forall x, (-128 <= x <= 127)%Z -> castT TChar x = x) by (intros x Hx; apply castT_small; exact Hx).
  unfold prob. cbn [mean]. destruct Hcase as [Hn|Hn].
  - rewrite !wrapU_small by (simpl; lia). rewrite (proj2 (Z.leb_le min max) H2). apply average_ext. intros z Hz. cbn [when]. rewrite C by lia. reflexivity.
  - assert (Hw : forall x, (-128 <= x < 0 -> wrapU 8 x = x + 256)%Z).
    { intros x Hx. unfold wrapU. change (2 ^ 8)%Z with 256%Z. symmetry. apply Z.mod_unique with (-1)%Z; lia. }
    rewrite !Hw by lia. destruct (Z.leb_spec (min + 256) (max + 256)); [|lia]. rewrite average_shift. apply average_ext. intros z Hz. cbn [when].
    replace (castT TChar (z + 256)) with z; [reflexivity|]. rewrite <- (C z) at 1 by lia. apply castT_mod. replace (z - (z + 256))%Z with (-256)%Z by lia. reflexivity.
Qed.
Lemma integer_law : forall ty min max, (tmin ty <= min)%Z -> (min <= max)%Z -> (max <= tmax ty)%Z -> ~ reversed_char ty min max -> ~ (min = tmin ty /\ max = tmax ty) ->
  law (fun E => generateInteger ty min max) (picked ty min max).
Proof.
  intros ty min max H1 H2 H3 Hc Hf E. change (fits root (generateInteger (E := E) ty min max) (picked ty min max)).
  assert (Hb : (min =? tmin ty)%Z && (max =? tmax ty)%Z = false) by (apply andb_false_iff; rewrite !Z.eqb_neq; destruct (Z.eq_dec min (tmin ty)); tauto).
  unfold generateInteger. rewrite Hb.
  assert (Q1 : forall r, seen root (gbind (getRandomT ty min max) (fun value => 
     if (value <? min)%Z || (max <? value)%Z then gfail (Throw ERuntime)
  else if (0 <=? min)%Z then
    gbind (gfail (arith ty (value - min))) (fun d =>
    gbind (gfail (BinSearchModel.binarySearchU (wrapU 64 (castT ty d)))) (fun t =>
    gret (map_tree (plusFunctor ty min) t)))
  else if (max <=? 0)%Z then
    gbind (gfail (arith ty (value - max))) (fun d =>
    gbind (gfail (BinSearchModel.binarySearch (wrapS 64 (castT ty d)))) (fun t =>
    gret (map_tree (plusFunctor ty max) t)))
  else
    gbind (gfail (BinSearchModel.binarySearch (wrapS 64 value))) (fun t =>
    gret (map_tree (castT ty) t))) r) = play (E := E) (pbind (picked ty min max) (fun v => Ends (Ok v))) r); [|].
  - apply (fits_bind _ _ _ _ _ same root (fun v => (min <= v <= max)%Z)); [apply picked_fits| |].
    + intros r x r' Hx. destruct (getRandomT_ok E ty min max r H1 H2 H3 Hc) as (v & r1 & Ev & Hv). congruence.
    + intros v Hv r. destruct (gi_shrink_tail E ty min max v r H1 H3 Hv) as (t & Et & Hr & _). rewrite Et. cbn [seen]. rewrite Hr. reflexivity.
  - intros r. unfold gbind at 1. cbn [gret]. rewrite Q1. clear. destruct ty; reflexivity.
Qed.

(** ** Whole types: half of the time one of the boundary values *)
Definition nth_plan {A} (l : list A) : plan A := Draws 0 (Z.of_nat (length l) - 1) (fun i => Ends (idx l i)).
Lemma sum_nth : forall A (f : res A -> Q) (l : list A), sum (length l) (fun i => f (idx l (Z.of_nat i))) == total (map (fun a => f (Ok a)) l).
Proof.
  intros A f l. assert (E : forall n (h : nat -> Q), sum (S n) h == h 0%nat + sum n (fun i => h (S i))).
  { intros n h. change (S n) with (1 + n)%nat. rewrite sum_split. cbn [sum Nat.add]. ring. }
  assert (I : forall (m : list A) i, idx m (Z.of_nat i) = match nth_error m i with Some a => Ok a | None => UB end).
  { intros m i. unfold idx. destruct (Z.ltb_spec (Z.of_nat i) 0); [lia|]. rewrite Nat2Z.id. reflexivity. }
  induction l as [|a l IH]; [reflexivity|]. cbn [length]. rewrite E. cbn [map total fold_right]. fold (total (map (fun a => f (Ok a)) l)). rewrite <- IH.
  rewrite I. cbn [nth_error]. apply Qplus_comp; [reflexivity|]. apply sum_ext. intros i _. rewrite !I. reflexivity.
Qed.
Lemma total_tells : forall A (ev : A -> bool) l, total (map (fun a => when ev (Ok a)) l) == inject_Z (Z.of_nat (length (filter ev l))).
Proof.
  intros A ev l. induction l as [|a l IH]; [reflexivity|]. cbn [map total fold_right filter]. fold (total (map (fun a => when ev (Ok a)) l)). rewrite IH. cbn [when].
  destruct (ev a); [|ring]. cbn [length]. rewrite Nat2Z.inj_succ. unfold Z.succ. rewrite inject_Z_plus. change (inject_Z 1) with 1. ring.
Qed.
Lemma mean_nth : forall A (l : list A) f, (0 < length l)%nat -> mean (nth_plan l) f == total (map (fun a => f (Ok a)) l) / inject_Z (Z.of_nat (length l)).
Proof.
  intros A l f H. unfold nth_plan. cbn [mean]. destruct (Z.leb_spec 0 (Z.of_nat (length l) - 1)); [|lia]. unfold average.
  replace (Z.of_nat (length l) - 1 - 0 + 1)%Z with (Z.of_nat (length l)) by lia. rewrite Nat2Z.id. rewrite <- sum_nth. reflexivity.
Qed.
Lemma prob_nth : forall A (l : list A) ev, (0 < length l)%nat -> prob (nth_plan l) ev == share ev l.
Proof. intros A l ev H. unfold prob. rewrite mean_nth by auto. rewrite total_tells. reflexivity. Qed.
Lemma nth_fits : forall E A (l : list A), (0 < length l)%nat -> (Z.of_nat (length l) <= UINT32_MAX + 1)%Z ->
  fits (E := E) same (gbind (getRandomSize 0 (Z.of_nat (length l))) (fun i => gfail (idx l i))) (nth_plan l).
Proof.
  intros E A l H0 H1. unfold UINT32_MAX in H1. unfold getRandomSize. rewrite (wrapU_small 32 0) by lia. rewrite (wrapU_small 64) by lia. rewrite (wrapU_small 32) by lia.
  change (nth_plan l) with (pbind (Draws 0 (Z.of_nat (length l) - 1) (fun z => Ends (Ok z))) (fun i => Ends (idx l i))).
  apply (fits_bind' _ _ _ _ _ same same); [apply fits_draw|]. intros i r. rewrite seen_same. unfold same. destruct (idx l i); reflexivity.
Qed.
Definition half_plan : plan bool := Draws 0 UINT64_MAX (fun u => Ends (Ok (u <=? 2 ^ 63)%Z)).
Lemma half_fits : forall E, fits (E := E) same (getRandomBool d_half) half_plan.
Proof.
  intros E r. rewrite seen_same. unfold getRandomBool. change (SFeqb d_half d_one) with false. cbv iota. unfold gbind, next8U, draw, half_plan. cbn [play].
  change (0 <=? UINT64_MAX)%Z with true. cbv iota. destruct (unif E 0 UINT64_MAX r) as [u r']. rewrite half_lim. reflexivity.
Qed.
Lemma below_prob : forall k, (0 <= k <= UINT64_MAX)%Z -> let p := Draws 0 UINT64_MAX (fun u => Ends (Ok (u <=? k)%Z)) in
  prob p (fun b => b) == odds k /\ prob p negb == 1 - odds k.
Proof.
  intros k Hk p. unfold prob, p. cbn [mean]. change (0 <=? UINT64_MAX)%Z with true. cbv iota.
  assert (B : forall a b, average 0 UINT64_MAX (fun z => if (z <=? k)%Z then a else b) == a * odds k + b * (1 - odds k)).
  { intros a b. rewrite average_below by exact Hk. change (UINT64_MAX + 1)%Z with (2 ^ 64)%Z. reflexivity. }
  split.
  - rewrite (average_ext _ _ _ (fun z => if (z <=? k)%Z then 1 else 0)); [rewrite B; ring|]. intros z _. cbn [when]. destruct (z <=? k)%Z; reflexivity.
  - rewrite (average_ext _ _ _ (fun z => if (z <=? k)%Z then 0 else 1)); [rewrite B; ring|]. intros z _. cbn [when]. destruct (z <=? k)%Z; reflexivity.
Qed.
Definition any_plan (ty : ity) : plan Z := pbind half_plan (fun b => if b then nth_plan (boundaryValues ty) else picked ty (tmin ty) (tmax ty)).
Lemma tmin_le_tmax : forall ty, (tmin ty <= tmax ty)%Z.
Proof. destruct ty; vm_compute; discriminate. Qed.
Lemma pbind_ret : forall E A (p : plan A) (r : rst E), play (pbind p (fun a => Ends (Ok a))) r = play p r.
Proof. intros E A p. induction p as [x|lo hi k IH]; intros r; [destruct x; reflexivity|]. cbn [pbind play]. destruct (lo <=? hi)%Z; [apply IH|reflexivity]. Qed.
Lemma any_law : forall ty, law (fun E => arbi ty) (any_plan ty).
Proof.
  intros ty E r. unfold arbi, generateInteger. rewrite !Z.eqb_refl. cbn [andb].
  rewrite <- (pbind_ret E _ (any_plan ty)). unfold any_plan.
  assert (A : forall r, play (E := E) (pbind (pbind half_plan (fun b => if b then nth_plan (boundaryValues ty) else picked ty (tmin ty) (tmax ty))) (fun a => Ends (Ok a))) r
    = play (pbind half_plan (fun b => pbind (if b then nth_plan (boundaryValues ty) else picked ty (tmin ty) (tmax ty)) (fun a => Ends (Ok a)))) r).
  { intros r0. rewrite play_bind, play_bind. unfold gbind. rewrite play_bind. unfold gbind. destruct (play half_plan r0) as [[b r1]| | |]; try reflexivity. rewrite play_bind. reflexivity. }
  rewrite A. clear A. revert r.
  match goal with |- forall r, seen root (gbind ?g ?k r) = _ => change (fits root (gbind g k) (pbind half_plan (fun b => pbind (if b then nth_plan (boundaryValues ty) else picked ty (tmin ty) (tmax ty)) (fun a => Ends (Ok a))))) end.
  pose proof (boundary_len ty) as BL.
  apply (fits_bind' _ _ _ _ _ same root _ _ half_plan (fun b => pbind (if b then nth_plan (boundaryValues ty) else picked ty (tmin ty) (tmax ty)) (fun a => Ends (Ok a)))); [apply half_fits|].
  intros b. unfold same at 1. apply (fits_bind _ _ _ _ _ same root (fun v => (tmin ty <= v <= tmax ty)%Z)).
  - destruct b; [apply nth_fits; unfold UINT32_MAX; lia|apply picked_fits].
  - intros r x r' Hx. destruct b.
    + destruct (boundary_draw E ty r) as (v & r1 & Ev & Hv). apply boundary_range in Hv. congruence.
    + assert (D : reversed_char ty (tmin ty) (tmax ty) \/ ~ reversed_char ty (tmin ty) (tmax ty)).
      { unfold reversed_char. destruct ty; try (right; intros [HH _]; discriminate HH). left. split; [reflexivity|]. vm_compute. intuition discriminate. }
      destruct D as [[-> _]|D]; [cbn [getRandomT] in Hx; unfold gbind, draw in Hx; discriminate Hx|].
      destruct (getRandomT_ok E ty (tmin ty) (tmax ty) r ltac:(lia) (tmin_le_tmax ty) ltac:(lia) D) as (v & r1 & Ev & Hv). congruence.
  - intros v Hv r. destruct (gi_shrink_tail E ty (tmin ty) (tmax ty) v r ltac:(lia) ltac:(lia) Hv) as (t & Et & Hr & _). rewrite Et. cbn [seen]. rewrite Hr. reflexivity.
Qed.
Lemma half_prob : prob half_plan (fun b => b) == odds (2 ^ 63) /\ prob half_plan negb == 1 - odds (2 ^ 63).
Proof. apply below_prob. unfold UINT64_MAX. lia. Qed.
Lemma prob_if : forall A (pc : plan bool) c (p1 p2 : plan A) ev, prob pc (fun b => b) == c -> prob pc negb == 1 - c ->
  prob (pbind pc (fun b => if b then p1 else p2)) ev == c * prob p1 ev + (1 - c) * prob p2 ev.
Proof. intros A pc c p1 p2 ev H1 H2. exact (prob_coin A pc c p1 p2 (when ev) H1 H2). Qed.
Lemma any_prob : forall ty ev, ty <> TChar -> prob (any_plan ty) ev == odds (2 ^ 63) * share ev (boundaryValues ty) + (1 - odds (2 ^ 63)) * average (tmin ty) (tmax ty) (tells ev).
Proof.
  intros ty ev H. unfold any_plan. destruct half_prob as [B1 B2]. pose proof (boundary_len ty) as BL.
  rewrite (prob_if _ half_plan _ _ _ ev B1 B2). rewrite prob_nth by lia.
  rewrite picked_prob; [reflexivity|lia|apply tmin_le_tmax|lia|]. intros [-> _]. congruence.
Qed.
