(** Facts about the values generators are able to produce. *)
From Coq Require Import List ZArith Lia Bool Permutation SpecFloat.
From Verif Require Import Base TreeModel TreeSpec TreeProof BinSearchModel BinSearchProof RandomModel IntegralModel IntegralSpec IntegralProof ListModel ListSpec ListMainProof
  ContainerModel ContainerSpec ContainerProof TupleModel EffModel EffSpec EffProof RunnerModel RunnerSpec RunnerShrinkProof ConstructSpec ConstructProof SupportSpec.
Import ListNotations.
Local Open Scope Z_scope.

Lemma yields_ret : forall X (x : X), yields (gret x) [] x.
Proof. intros X x rest. reflexivity. Qed.
Lemma yields_ok : forall X (x : res X) a, x = Ok a -> yields (gfail x) [] a.
Proof. intros X x a -> rest. reflexivity. Qed.
Lemma yields_bind : forall X Y (g : G replay X) (f : X -> G replay Y) l x l' y, yields g l x -> yields (f x) l' y -> yields (gbind g f) (l ++ l') y.
Proof. intros X Y g f l x l' y H1 H2 rest. unfold gbind. rewrite <- app_assoc, H1. apply H2. Qed.
Lemma yields_bind0 : forall X Y (g : G replay X) (f : X -> G replay Y) x l y, yields g [] x -> yields (f x) l y -> yields (gbind g f) l y.
Proof. intros X Y g f x l y H1 H2. exact (yields_bind _ _ _ _ [] x l y H1 H2). Qed.
Lemma yields_map : forall X Y (g : G replay X) (f : X -> Y) l x, yields g l x -> yields (gbind g (fun x => gret (f x))) l (f x).
Proof. intros X Y g f l x H. rewrite <- (app_nil_r l). eapply yields_bind; [exact H|apply yields_ret]. Qed.
Lemma yields_draw : forall a b x, a <= x <= b -> yields (draw a b) [x] x.
Proof.
  intros a b x H rest. unfold draw. destruct (Z.leb_spec a b); [|lia]. cbn [app unif replay replay_unif].
  destruct (Z.leb_spec a x); [|lia]. destruct (Z.leb_spec x b); [|lia]. reflexivity.
Qed.

Lemma yields_ext : forall X (g h : G replay X) l x, (forall r, g r = h r) -> yields g l x -> yields h l x.
Proof. intros X g h l x H Y rest. rewrite <- H. apply Y. Qed.

(* computations that do not use the engine *)
Definition still {X} (g : G replay X) : Prop := exists c, forall r, g r = gfail c r.
Lemma still_fail : forall X (c : res X), still (gfail c). Proof. intros X c. exists c. reflexivity. Qed.
Lemma still_ret : forall X (x : X), still (gret x). Proof. intros X x. exists (Ok x). reflexivity. Qed.
Lemma still_if : forall X (b : bool) (g h : G replay X), still g -> still h -> still (if b then g else h). Proof. intros X [|]; auto. Qed.
Lemma still_bind : forall X Y (g : G replay X) (f : X -> G replay Y), still g -> (forall x, still (f x)) -> still (gbind g f).
Proof.
  intros X Y g f [c Hc] Hf. destruct c as [x| |e|].
  - destruct (Hf x) as [d Hd]. exists d. intros r. unfold gbind. rewrite Hc. cbn [gfail]. apply Hd.
  - exists UB. intros r. unfold gbind. rewrite Hc. reflexivity.
  - exists (Throw e). intros r. unfold gbind. rewrite Hc. reflexivity.
  - exists OutOfFuel. intros r. unfold gbind. rewrite Hc. reflexivity.
Qed.
Lemma still_yields : forall X (g : G replay X) x (r r' : list Z), still g -> g r = Ok (x, r') -> yields g [] x.
Proof. intros X g x r r' [c Hc] H. rewrite Hc in H. destruct c; try discriminate. injection H as -> _. intros rest. rewrite Hc. reflexivity. Qed.

(** * Numbers *)
Lemma number : forall ty min max x,
  tmin ty <= min -> min <= x <= max -> max <= tmax ty -> ~ reversed_char ty min max -> canGive (generateInteger ty min max) x.
Proof.
  intros ty min max x H1 H2 H3 Hc.
  assert (Hd : exists w : Z, yields (getRandomT ty min max) [w] x).
  { assert (Hgen : yields (gbind (draw (castT ty min) (castT ty max)) (fun u => gret (castT ty u))) [x] x).
    { rewrite !castT_small by lia. rewrite <- (castT_small ty x) at 2 by lia. apply yields_map, yields_draw. lia. }
    destruct ty; try (exists x; exact Hgen). clear Hgen. cbn [getRandomT].
    change (tmin TChar) with (-128) in *. change (tmax TChar) with 127 in *. unfold reversed_char in Hc.
    assert (Hw : forall x, -128 <= x < 0 -> wrapU 8 x = x + 256).
    { intros y Hy. unfold wrapU. change (2 ^ 8) with 256. symmetry. apply Z.mod_unique with (-1); lia. }
    assert (Hcast : castT TChar (wrapU 8 x) = x).
    { transitivity (castT TChar x); [|apply castT_small; change (tmin TChar) with (-128); change (tmax TChar) with 127; lia].
      apply castT_mod. change (2 ^ bits TChar) with (2 ^ 8). unfold wrapU. rewrite Zminus_mod, Z.mod_mod, Z.sub_diag; reflexivity || lia. }
    exists (wrapU 8 x). rewrite <- Hcast at 2. apply (yields_map _ _ _ (castT TChar)), yields_draw. destruct (Z_lt_le_dec max 0).
    - rewrite !Hw by lia. lia.
    - assert (0 <= min) by (destruct (Z_lt_le_dec min 0); [exfalso; apply Hc; auto|lia]). rewrite !wrapU_small by (simpl; lia). lia. }
  destruct Hd as [w Hw]. unfold generateInteger. destruct (gi_shrink_tail replay ty min max x []) as [t [Et [Hroot _]]]; try lia.
  exists ((if (min =? tmin ty) && (max =? tmax ty) then [UINT64_MAX] else []) ++ [w] ++ []), t. split; [exact Hroot|]. apply yields_bind with (x := false).
  - destruct ((min =? tmin ty) && (max =? tmax ty)); [|apply yields_ret]. intros rest. reflexivity.
  - apply yields_bind with (x := x); [exact Hw|]. apply still_yields with (r := []) (r' := []); [|exact Et]. repeat first [apply still_if|apply still_bind; intros|apply still_fail|apply still_ret].
Qed.

Lemma half_draw : forall u, 0 <= u <= UINT64_MAX -> yields (getRandomBool d_half) [u] (u <=? 2 ^ 63).
Proof.
  intros u Hu rest. unfold getRandomBool. change (SFeqb d_half d_one) with false. cbv iota. unfold gbind at 1. unfold next8U. rewrite (yields_draw 0 UINT64_MAX u Hu rest).
  rewrite half_lim. reflexivity.
Qed.


(** * Sizes and repetitions *)
Lemma size_drawn : forall mn mx n, 0 <= mn -> mx <= UINT32_MAX -> mn <= n <= mx -> yields (containerSize {| minSize := mn; maxSize := mx |}) [n] n.
Proof. intros mn mx n H0 H1 H2 rest. rewrite containerSize_eq by lia. apply yields_draw. exact H2. Qed.

Lemma repeated : forall A (g : gen replay A) vs, Forall (canGive g) vs -> exists l ts, map root ts = vs /\ yields (times (length vs) g) l ts.
Proof.
  intros A g vs H. induction H as [|v vs (l & t & R & Y) H (l' & ts & R' & Y')]; [exists [], []; split; [reflexivity|apply yields_ret]|].
  exists (l ++ l'), (t :: ts). cbn [map length times]. rewrite R, R'. split; [reflexivity|]. eapply yields_bind; [exact Y|]. apply (yields_map _ _ _ (fun xs => t :: xs)). exact Y'.
Qed.

(** Inserting in ascending order. *)
Lemma filled_up : forall A (lt : A -> A -> bool) (g : gen replay A) vs, strict_order lt -> Forall (canGive g) vs ->
  exists l ts, map root ts = vs /\ forall acc, ascending lt (map root acc ++ vs) -> forall m, (length vs <= m)%nat -> yields (fillSet m lt g (size acc + size vs) acc) l (acc ++ ts).
Proof.
  intros A lt g vs So F. induction F as [|v vs (l & t & R & Y) F (l' & ts & R' & Y')].
  - exists [], []. split; [reflexivity|]. intros acc _ m _ rest. rewrite app_nil_r. unfold size. cbn [length].
    destruct m; cbn [fillSet]; unfold size; (destruct (Z.ltb_spec (Z.of_nat (length acc)) (Z.of_nat (length acc) + Z.of_nat 0)); [lia|reflexivity]).
  - exists (l ++ l'), (t :: ts). cbn [map]. rewrite R, R'. split; [reflexivity|]. intros acc H m Hm. assert (E : set_insert (less_shr lt) t acc = acc ++ [t]).
    { apply set_insert_last.
      - split; intros; unfold less_shr; [apply (so_irrefl _ So)|eapply (so_trans _ So); eauto].
      - apply ascending_app_lt in H. rewrite Forall_map in H. eapply Forall_impl; [|exact H]. intros a Ha. unfold less_shr. rewrite R. exact Ha. }
    destruct m as [|m]; cbn [length] in Hm; [lia|]. cbn [fillSet].
    replace (size acc <? size acc + size (v :: vs)) with true by (symmetry; apply Z.ltb_lt; unfold size; cbn [length]; lia).
    eapply yields_bind; [exact Y|]. cbv beta. rewrite E. replace (acc ++ t :: ts) with ((acc ++ [t]) ++ ts) by (rewrite <- app_assoc; reflexivity).
    replace (size acc + size (v :: vs)) with (size (acc ++ [t]) + size vs) by (unfold size; rewrite app_length; cbn [length]; lia). apply Y'; [|lia].
    rewrite map_app. cbn [map]. rewrite R, <- app_assoc. exact H.
Qed.

(** * Several generators, evaluated in some order *)
Lemma in_any_order : forall X (fs : list (G replay (X + err))) xs (ls : nat -> list Z), length xs = length fs ->
  (forall i f x, nth_error fs i = Some f -> nth_error xs i = Some x -> yields f (ls i) (inl x)) ->
  forall ord, order (length fs) ord -> yields (evalTuple ord fs) (flat_map ls ord) (inl xs).
Proof.
  intros X fs xs ls Hl H ord O rest. apply (evalTuple_turn _ _ _ _ _ _ _ O). split; [exact Hl|].
  assert (B : forall i, In i ord -> (i < length fs)%nat) by (intros i Hi; apply (order_in _ _ O); exact Hi). clear O. induction ord as [|i o IH]; [constructor|].
  cbn [flat_map]. rewrite <- app_assoc. pose proof (B i (or_introl eq_refl)) as Bi. destruct (nth_error fs i) as [f|] eqn:Ef; [|apply nth_error_None in Ef; lia].
  destruct (nth_error xs i) as [x|] eqn:Ex; [|apply nth_error_None in Ex; lia]. econstructor; [exact Ef|apply (H i f x Ef Ex)|exact Ex|]. apply IH. intros j Hj. apply B. right. exact Hj.
Qed.
Lemma all_given : forall X V (see : X -> V) (fs : list (G replay (X + err))) vs, Forall2 (fun f v => exists l x, see x = v /\ yields f l (inl x)) fs vs ->
  exists xs ls, map see xs = vs /\ length xs = length fs /\ forall i f x, nth_error fs i = Some f -> nth_error xs i = Some x -> yields f (nth i ls []) (inl x).
Proof.
  intros X V see fs vs H. induction H as [|f v fs vs (l & x & Hv & Y) H (xs & ls & M & L & IH)]; [exists [], []; split; [reflexivity|]; split; [reflexivity|]; intros [|i]; discriminate|].
  exists (x :: xs), (l :: ls). cbn [map length]. rewrite Hv, M, L. split; [reflexivity|]. split; [reflexivity|]. intros [|i] f0 x0 E1 E2; cbn in *; [injection E1 as <-; injection E2 as <-; exact Y|eapply IH; eauto].
Qed.

(** * Shrinkables whose shrinks draw *)
Lemma spine_root : forall A (Q : A -> Prop) x, spine Q x -> Q (eroot x).
Proof. intros A Q x H. destruct H; exact H. Qed.
Lemma spine_lift : forall A (Q : A -> Prop) t, all_values Q t -> spine Q (elift t).
Proof.
  intros A Q t. induction t as [a ts IH] using tree_ind'. intros H. destruct ts as [|s ts].
  - eapply spine_last; [apply (H _ (reach_refl _))|apply yields_ret].
  - eapply spine_next; [apply (H _ (reach_refl _))|cbn [elift]; apply yields_ret|]. inversion IH as [|? ? Hs _]; subst. apply Hs. intros u Hu. apply H. eapply reach_step; [left; reflexivity|exact Hu].
Qed.
Lemma spine_weaken : forall A (Q Q' : A -> Prop) x, (forall a, Q a -> Q' a) -> spine Q x -> spine Q' x.
Proof. intros A Q Q' x H S. induction S; [eapply spine_last; eauto|eapply spine_next; eauto]. Qed.
Lemma lift_given : forall A (Q : A -> Prop) g v, canGiveIn Q g v -> canGiveE Q (liftGen g) v.
Proof.
  intros A Q g v (l & t & R & H & Y). exists l, (elift t). split; [destruct t; exact R|]. split; [apply spine_lift; exact H|]. apply (yields_map _ _ _ elift). exact Y.
Qed.

Lemma flat_spine : forall A B (f : A -> egen replay B) (Q : A -> Prop) (Q' : B -> Prop), (forall a, Q a -> exists l b, Q' (eroot b) /\ yields (f a) l b) ->
  forall x, spine Q x -> forall l b, yields (f (eroot x)) l b -> Q' (eroot b) -> exists l' y, eroot y = eroot b /\ spine Q' y /\ yields (eflatMap f x) l' y.
Proof.
  intros A B f Q Q' Hf x S. induction S as [a shr l0 Qa Y0|a shr l0 h tl Qa Y0 S IH]; intros l b Yb Qb; cbn [eroot] in Yb; cbn [eflatMap].
  - exists l, (ENode (eroot b) (gbind shr (eflatMap_s f))). split; [reflexivity|]. split; [|apply (yields_map _ _ _ (fun b => ENode (eroot b) (gbind shr (eflatMap_s f)))); exact Yb].
    apply spine_last with (l := l0 ++ []); [exact Qb|]. eapply yields_bind; [exact Y0|apply yields_ret].
  - exists l, (ENode (eroot b) (gbind shr (eflatMap_s f))). split; [reflexivity|]. split; [|apply (yields_map _ _ _ (fun b => ENode (eroot b) (gbind shr (eflatMap_s f)))); exact Yb].
    destruct (Hf _ (spine_root _ _ _ S)) as (l1 & b1 & Q1 & Y1). destruct (IH l1 b1 Y1 Q1) as (l2 & y & _ & Sy & Yy).
    apply spine_next with (l := l0 ++ l2) (h := y) (tl := gbind tl (eflatMap_s f)); [exact Qb| |exact Sy]. eapply yields_bind; [exact Y0|].
    apply (yields_map _ _ _ (fun h' => ECons h' (gbind tl (eflatMap_s f)))). exact Yy.
Qed.
Lemma then_spine : forall A (thn : etree replay A -> G replay (estream replay A)) (Q : A -> Prop),
  (forall x, Q (eroot x) -> exists l s, yields (thn x) l s /\ match s with ENil => True | ECons h _ => spine Q h end) ->
  forall x, spine Q x -> exists l y, eroot y = eroot x /\ spine Q y /\ yields (eandThen thn x) l y.
Proof.
  intros A thn Q Ht x S. induction S as [a shr l0 Qa Y0|a shr l0 h tl Qa Y0 S (l1 & y1 & _ & S1 & Y1)]; cbn [eandThen].
  - exists (l0 ++ []), (ENode a (thn (ENode a shr))). split; [reflexivity|]. split; [|eapply yields_bind; [exact Y0|apply yields_ret]].
    destruct (Ht (ENode a shr) Qa) as (l & s & Y & Hs). destruct s as [|h tl]; [eapply spine_last; eauto|eapply spine_next; eauto].
  - exists (l0 ++ []), (ENode a (gbind shr (eandThen_s thn))). split; [reflexivity|]. split; [|eapply yields_bind; [exact Y0|apply yields_ret]].
    apply spine_next with (l := l0 ++ l1) (h := y1) (tl := gbind tl (eandThen_s thn)); [exact Qa| |exact S1]. eapply yields_bind; [exact Y0|].
    apply (yields_map _ _ _ (fun h' => ECons h' (gbind tl (eandThen_s thn)))). exact Y1.
Qed.
Lemma map_spine : forall A B (f : A -> B) (Q : A -> Prop) (Q' : B -> Prop), (forall a, Q a -> Q' (f a)) -> forall x, spine Q x -> spine Q' (emap f x).
Proof.
  intros A B f Q Q' Hf x S. induction S as [a shr l0 Qa Y0|a shr l0 h tl Qa Y0 S IH]; cbn [emap].
  - apply spine_last with (l := l0); [apply Hf; exact Qa|]. exact (yields_map _ _ _ (emap_s f) _ _ Y0).
  - apply spine_next with (l := l0) (h := emap f h) (tl := gbind tl (fun s' => gret (emap_s f s'))); [apply Hf; exact Qa| |exact IH]. exact (yields_map _ _ _ (emap_s f) _ _ Y0).
Qed.

Lemma second_spine : forall T U (Q1 : T -> Prop) (Q2 : T -> U -> Prop) (x : etree replay (T * etree replay U)), Q1 (fst (eroot x)) /\ spine (Q2 (fst (eroot x))) (snd (eroot x)) ->
  exists l s, yields (secondShrinks x) l s /\ match s with ENil => True | ECons h _ => spine (fun p => Q1 (fst p) /\ spine (Q2 (fst p)) (snd p)) h end.
Proof.
  intros T U Q1 Q2 [[t u] shr] [H1 H2]. cbn [eroot fst snd] in *. unfold secondShrinks. cbn [eroot].
  destruct (flat_spine U (T * etree replay U) (fun x => gret (emake (t, emake x))) (Q2 t) (fun p => Q1 (fst p) /\ spine (Q2 (fst p)) (snd p))) with (x := u) (l := @nil Z) (b := emake (E := replay) (t, emake (E := replay) (eroot u))) as (l & y & _ & Sy & Yy); auto.
  - intros a Qa. exists [], (emake (t, emake a)). split; [|apply yields_ret]. cbn [eroot emake fst snd]. split; [exact H1|]. eapply spine_last; [exact Qa|apply yields_ret].
  - apply yields_ret.
  - cbn [eroot emake fst snd]. split; [exact H1|]. eapply spine_last; [apply spine_root; exact H2|apply yields_ret].
  - destruct Sy as [p sy ly Qp Ys|p sy ly h tl Qp Ys Sh].
    + exists (l ++ ly), ENil. split; [|exact I]. eapply yields_bind; [exact Yy|exact Ys].
    + exists (l ++ ly), (ECons h tl). split; [|exact Sh]. eapply yields_bind; [exact Yy|exact Ys].
Qed.

Lemma dependent_given : forall T U W (g1 : egen replay T) (g2 : T -> egen replay U) (fin : T * etree replay U -> etree replay W) (k : T -> U -> W) (Q1 : T -> Prop) (Q2 : T -> U -> Prop) (Q : W -> Prop) a c,
  (forall t u, eroot (fin (t, u)) = k t (eroot u)) -> (forall t u, Q1 t -> Q2 t u -> Q (k t u)) -> canGiveE Q1 g1 a -> (forall a', Q1 a' -> exists c', canGiveE (Q2 a') (g2 a') c') -> canGiveE (Q2 a) (g2 a) c ->
  canGiveE Q (dependent g1 g2 fin) (k a c).
Proof.
  intros T U W g1 g2 fin k Q1 Q2 Q a c Hfin HQ (l1 & x & R1 & S1 & Y1) Hall (l2 & u & R2 & S2 & Y2). subst a.
  set (P := fun p : T * etree replay U => Q1 (fst p) /\ spine (Q2 (fst p)) (snd p)).
  destruct (flat_spine _ _ (interFunctor g2) Q1 P) with (x := x) (l := l2) (b := emake (E := replay) (eroot x, u)) as (l3 & y & Ry & Sy & Yy); auto.
  - intros a' Qa. destruct (Hall a' Qa) as (c' & l' & u' & _ & S' & Y'). exists l', (emake (a', u')). split; [split; assumption|]. exact (yields_map _ _ _ (fun u => emake (a', u)) _ _ Y').
  - exact (yields_map _ _ _ (fun u => emake (eroot x, u)) _ _ Y2).
  - split; [exact (spine_root _ _ _ S1)|exact S2].
  - destruct (then_spine _ secondShrinks P (second_spine _ _ Q1 Q2) y Sy) as (l4 & z & Rz & Sz & Yz). rewrite Ry in Rz. cbn [eroot emake] in Rz.
    destruct (flat_spine _ _ (fun p => gret (fin p)) P Q) with (x := z) (l := @nil Z) (b := fin (eroot z)) as (l5 & w & Rw & Sw & Yw); auto.
    + intros p [P1 P2]. exists [], (fin p). split; [|apply yields_ret]. destruct p as [t v]. rewrite Hfin. apply HQ; [exact P1|]. exact (spine_root _ _ _ P2).
    + apply yields_ret.
    + rewrite Rz, Hfin. apply HQ; [exact (spine_root _ _ _ S1)|exact (spine_root _ _ _ S2)].
    + exists (l1 ++ l3 ++ l4 ++ l5), w. rewrite Rw, Rz, Hfin, R2. split; [reflexivity|]. split; [exact Sw|]. unfold dependent. repeat (eapply yields_bind; [eassumption|]). exact Yw.
Qed.

(** * Repeated dependence *)
Lemma steps_given : forall T (Q : T -> Prop) (g2 : T -> egen replay T) xs x, linked (fun a b => canGiveE Q (g2 a) b) (eroot x) xs -> spine Q x ->
  exists l y, eroot y = last xs (eroot x) /\ spine Q y /\ yields (aggregateSteps (length xs) g2 x) l y.
Proof.
  intros T Q g2 xs. induction xs as [|b xs IH]; intros x H S; [exists [], x; split; [reflexivity|]; split; [exact S|apply yields_ret]|].
  destruct H as [(l & u & R & Su & Y) H]. subst b. destruct (IH u H Su) as (l' & y & Ry & Sy & Yy). exists (l ++ l'), y. split.
  - rewrite Ry. cbn [last]. destruct xs; [reflexivity|]. clear. generalize dependent t. induction xs as [|b xs IH]; intros t; [reflexivity|]. apply IH.
  - split; [exact Sy|]. cbn [length aggregateSteps]. eapply yields_bind; [exact Y|exact Yy].
Qed.
Lemma chain_exists : forall T (R : T -> T -> Prop) (Q : T -> Prop), (forall a, Q a -> exists b, R a b /\ Q b) -> forall n a, Q a -> exists xs, length xs = n /\ linked R a xs.
Proof.
  intros T R Q H n. induction n as [|n IH]; intros a Qa; [exists []; split; [reflexivity|exact I]|]. destruct (H a Qa) as (b & Rb & Qb). destruct (IH b Qb) as (xs & L & Hx).
  exists (b :: xs). cbn [length linked]. auto.
Qed.
Lemma given_ok : forall T (Q : T -> Prop) (g : egen replay T) a, canGiveE Q g a -> Q a.
Proof. intros T Q g a (l & x & <- & S & _). exact (spine_root _ _ _ S). Qed.
Lemma good_within : forall mn mx t, good_integer mn mx t -> all_values (fun v => mn <= v <= mx) t.
Proof.
  intros mn mx t G. apply all_values_values. apply Forall_forall. intros v Hv. apply (Permutation_in _ (gi_values _ _ _ G)) in Hv. pose proof (gi_range _ _ _ G) as R.
  unfold nearest_zero in Hv. destruct Hv as [<-|Hv]; [exact R|]. unfold between in Hv. destruct (Z.leb_spec (Z.max mn (Z.min mx 0)) (root t)) as [H|H]; apply zrange_In in Hv; lia.
Qed.
Lemma number_within : forall ty mn mx x, tmin ty <= mn -> mn <= x <= mx -> mx <= tmax ty -> ~ reversed_char ty mn mx -> canGiveIn (fun v => mn <= v <= mx) (interval ty mn mx) x.
Proof.
  intros ty mn mx x H0 H1 H2 Hc. destruct (number ty mn mx x) as (l & t & R & Y); auto. exists l, t. split; [exact R|]. split; [|exact Y].
  destruct (generateInteger_ok replay ty mn mx (l ++ [])) as (t' & r' & E & G); auto; [lia|]. pose proof (Y []) as Y0. rewrite E in Y0. injection Y0 as <- _. apply good_within. exact G.
Qed.
Lemma size_given : forall mn mx n, 0 <= mn -> mn <= n <= mx -> mx <= UINT64_MAX -> canGiveE (fun s => mn <= s <= mx) (liftGen (interval TU64 mn mx)) n.
Proof. intros mn mx n H0 H1 H2. apply lift_given, number_within; auto. intros [X _]. discriminate. Qed.

Lemma aggregate_given : forall T (Q : T -> Prop) (g1 : egen replay T) (g2 : T -> egen replay T) mn mx x xs, (forall a, Q a -> exists b, canGiveE Q (g2 a) b) ->
  canGiveE Q g1 x -> linked (fun a b => canGiveE Q (g2 a) b) x xs -> 0 <= mn -> mn <= size xs <= mx -> mx <= UINT64_MAX -> canGiveE Q (aggregate g1 g2 mn mx) (last xs x).
Proof.
  intros T Q g1 g2 mn mx x xs Hall G1 HL H0 H1 H2.
  assert (Inner : forall x xs, canGiveE Q g1 x -> linked (fun a b => canGiveE Q (g2 a) b) x xs -> canGiveE Q (gbind g1 (fun shr => aggregateSteps (length xs) g2 shr)) (last xs x)).
  { intros x' xs' (l & u & R & S & Y) L. subst x'. destruct (steps_given T Q g2 xs' u L S) as (l' & y & Ry & Sy & Yy). exists (l ++ l'), y. split; [exact Ry|]. split; [exact Sy|].
    eapply yields_bind; [exact Y|exact Yy]. }
  unfold aggregate, derive. apply (dependent_given Z T T _ _ snd (fun _ u => u) (fun s => mn <= s <= mx) (fun _ => Q) Q (size xs)).
  - reflexivity.
  - auto.
  - apply size_given; auto.
  - intros n Hn. destruct (chain_exists T (fun a b => canGiveE Q (g2 a) b) Q) with (n := Z.to_nat n) (a := x) as (xs' & L' & H').
    + intros a Qa. destruct (Hall a Qa) as (b & Hb). exists b. split; [exact Hb|]. eapply given_ok; exact Hb.
    + eapply given_ok; exact G1.
    + exists (last xs' x). rewrite <- L'. apply Inner; auto.
  - unfold size. rewrite Nat2Z.id. apply Inner; auto.
Qed.

Lemma accumulated : forall T (Q : T -> Prop) (g2 : T -> egen replay T) xs x, linked (fun a b => canGiveE Q (g2 a) b) (eroot x) xs -> spine Q x ->
  exists l ys, map eroot ys = eroot x :: xs /\ Forall (spine Q) ys /\ yields (accumulateSteps (length xs) g2 x) l ys.
Proof.
  intros T Q g2 xs. induction xs as [|b xs IH]; intros x H S; [exists [], [x]; split; [reflexivity|]; split; [auto|apply yields_ret]|].
  destruct H as [(l & u & R & Su & Y) H]. subst b. destruct (IH u H Su) as (l' & ys & Ry & Sy & Yy). exists (l ++ l'), (x :: ys). cbn [map length accumulateSteps]. rewrite Ry. split; [reflexivity|].
  split; [auto|]. eapply yields_bind; [exact Y|]. apply (yields_map _ _ _ (fun l => x :: l)). exact Yy.
Qed.
Lemma last_spine : forall T (Q : T -> Prop) (x : etree replay (list (etree replay T))), Forall (spine Q) (eroot x) ->
  exists l s, yields (shrinkLast x) l s /\ match s with ENil => True | ECons h _ => spine (Forall (spine Q)) h end.
Proof.
  intros T Q [vec shr] H. cbn [eroot] in H. unfold shrinkLast. cbn [eroot]. destruct (rev vec) as [|lst r] eqn:E; [exists [], ENil; split; [apply yields_ret|exact I]|].
  assert (Ev : vec = rev r ++ [lst]) by (rewrite <- (rev_involutive vec), E; reflexivity). assert (Hl : spine Q lst) by (rewrite Ev in H; apply Forall_app in H; destruct H as [_ H]; inversion H; auto).
  destruct Hl as [a sh l Qa Y|a sh l h tl Qa Y Sh]; cbn [eshrinks].
  - exists l, ENil. split; [|exact I]. exact (yields_map _ _ _ (lastShrinks vec) _ _ Y).
  - exists l, (lastShrinks vec (ECons h tl)). split; [exact (yields_map _ _ _ (lastShrinks vec) _ _ Y)|]. cbn [lastShrinks]. eapply spine_last; [|apply yields_ret].
    apply Forall_app. split; [|auto]. rewrite Ev, removelast_last. rewrite Ev in H. apply Forall_app in H. tauto.
Qed.

Lemma accumulate_given : forall T (Q : T -> Prop) (g1 : egen replay T) (g2 : T -> egen replay T) mn mx v, (exists x, canGiveE Q g1 x) -> (forall a, Q a -> exists b, canGiveE Q (g2 a) b) ->
  match v with [] => True | x :: xs => canGiveE Q g1 x /\ linked (fun a b => canGiveE Q (g2 a) b) x xs end -> 0 <= mn -> mn <= size v <= mx -> mx <= INT64_MAX ->
  canGiveE (Forall Q) (accumulate g1 g2 mn mx) v.
Proof.
  intros T Q g1 g2 mn mx v [x0 G0] Hall Hv H0 H1 H2. unfold accumulate, derive. match goal with |- canGiveE _ (dependent _ ?f _) _ => set (F := f) end.
  assert (Inner : forall v, match v with [] => True | x :: xs => canGiveE Q g1 x /\ linked (fun a b => canGiveE Q (g2 a) b) x xs end -> mn <= size v <= mx -> canGiveE (Forall Q) (F (size v)) v).
  { intros [|x xs] V Hn; unfold F.
    - exists [], (emake []). split; [reflexivity|]. split; [eapply spine_last; [constructor|apply yields_ret]|apply yields_ret].
    - destruct V as [(l & u & R & S & Y) L]. subst x. destruct (accumulated T Q g2 xs u L S) as (l' & ys & Ry & Sy & Yy).
      replace (size (eroot u :: xs) =? 0) with false by (symmetry; apply Z.eqb_neq; unfold size; cbn [length]; lia).
      replace (Z.to_nat (size (eroot u :: xs)) - 1)%nat with (length xs) by (unfold size; cbn [length]; lia).
      assert (Ly : length ys = (1 + length xs)%nat) by (rewrite <- (map_length eroot ys), Ry; reflexivity). unfold size in Hn. cbn [length] in Hn.
      destruct (length_ok _ ys (Z.to_nat mn)) as (t & Et & Rt & Pt); [unfold size; lia|lia|]. rewrite Z2Nat.id in Et by lia.
      assert (At : all_values (Forall (spine Q)) t).
      { apply all_values_values, Forall_forall. intros w Hw. apply (Permutation_in _ Pt) in Hw. unfold prefixes_min in Hw. apply in_map_iff in Hw. destruct Hw as (k & <- & _). apply Forall_forall. intros z Hz. rewrite Forall_forall in Sy. apply Sy. rewrite <- (firstn_skipn k ys). apply in_or_app. left. exact Hz. }
      destruct (then_spine _ shrinkLast (Forall (spine Q)) (last_spine T Q) (elift t) (spine_lift _ _ _ At)) as (l2 & z & Rz & Sz & Yz).
      exists (l ++ l' ++ [] ++ l2), (emap (map eroot) z). split.
      + destruct z as [zr zs]. cbn [emap eroot] in *. rewrite Rz. destruct t. cbn [elift eroot root] in *. congruence.
      + split; [apply (map_spine _ _ _ (Forall (spine Q))); [|exact Sz]; intros w Hw; rewrite Forall_map; eapply Forall_impl; [|exact Hw]; intros; apply spine_root; auto|].
        eapply yields_bind; [exact Y|]. eapply yields_bind; [exact Yy|]. eapply yields_bind; [apply yields_ok; exact Et|]. apply (yields_map _ _ _ (emap (map eroot))). exact Yz. }
  apply (dependent_given Z (list T) (list T) _ F snd (fun _ u => u) (fun s => mn <= s <= mx) (fun _ => Forall Q) (Forall Q) (size v)).
  - reflexivity.
  - auto.
  - apply size_given; auto. unfold INT64_MAX, UINT64_MAX in *. lia.
  - intros n Hn. destruct (Z.to_nat n) as [|k] eqn:En.
    + exists []. replace n with (size (@nil T)) by (unfold size; cbn [length]; lia). apply Inner; [exact I|]. unfold size. cbn [length]. lia.
    + destruct (chain_exists T (fun a b => canGiveE Q (g2 a) b) Q) with (n := k) (a := x0) as (xs' & L' & H').
      * intros a Qa. destruct (Hall a Qa) as (b & Hb). exists b. split; [exact Hb|]. eapply given_ok; exact Hb.
      * eapply given_ok; exact G0.
      * exists (x0 :: xs'). replace n with (size (x0 :: xs')) by (unfold size; cbn [length]; lia). apply Inner; [auto|]. unfold size. cbn [length]. lia.
  - apply Inner; auto.
Qed.
