(** Proofs about exceptions thrown while shrinking. *)
From Coq Require Import String List ZArith Bool Lia Permutation.
From Verif Require Import Base TreeModel TreeSpec TreeProof RandomModel TupleModel EffModel EffSpec EffProof ContextModel ContextSpec RunnerModel RunnerSpec RunnerProof
  RunnerLogProof ThrowModel ThrowSpec.
Import ListNotations.
Local Open Scope list_scope.

(* tuples *)
Definition mapR {X Y} (f : X -> Y) (x : X + err) : Y + err := match x with inl a => inl (f a) | inr e => inr e end.
Definition mapG {E X Y} (f : X -> Y) (g : G E (X + err)) : G E (Y + err) := gbind g (fun x => gret (mapR f x)).
Definition resMap {E X Y} (f : X -> Y) (x : res ((X + err) * rst E)) : res ((Y + err) * rst E) :=
  match x with Ok (a, r) => Ok (mapR f a, r) | UB => UB | Throw e => Throw e | OutOfFuel => OutOfFuel end.

Lemma mapG_eq : forall E X Y (f : X -> Y) (g : G E (X + err)) r, mapG f g r = resMap f (g r).
Proof. intros. unfold mapG, gbind, resMap. destruct (g r) as [[a q]| | |]; reflexivity. Qed.

Lemma set_nth_map : forall X Y (f : X -> Y) i a l, map f (set_nth i a l) = set_nth i (f a) (map f l).
Proof. intros X Y f. induction i as [|i IH]; intros a [|b l]; cbn; auto. f_equal. auto. Qed.

Lemma evalIn_map : forall E X Y (f : X -> Y) ord (fs hs : list (G E _)) acc r,
  Forall2 (fun (g : G E (X + err)) (h : G E (Y + err)) => forall r, h r = resMap f (g r)) fs hs ->
  evalIn ord hs (map (option_map f) acc) r = resMap (map (option_map f)) (evalIn ord fs acc r).
Proof.
  intros E X Y f. induction ord as [|i o IH]; intros fs hs acc r H; [reflexivity|]. cbn [evalIn].
  assert (Hn : (nth_error fs i = None /\ nth_error hs i = None) \/ exists g h, nth_error fs i = Some g /\ nth_error hs i = Some h /\ forall r, h r = resMap f (g r)).
  { clear IH. revert i. induction H as [|g h fs hs Hgh _ IHf]; intros [|i]; cbn; eauto 8. }
  destruct Hn as [[-> ->]|(g & h & -> & -> & Hgh)]; [reflexivity|]. unfold gbind. rewrite Hgh.
  destruct (g r) as [[[a|e] q]| | |]; cbn [resMap mapR]; try reflexivity.
  change (Some (f a)) with (option_map f (Some a)). rewrite <- set_nth_map. apply IH; auto.
Qed.

Lemma collect_map : forall X Y (f : X -> Y) l, collect (map (option_map f) l) = option_map (map f) (collect l).
Proof. intros X Y f. induction l as [|[x|] l IH]; cbn; auto. rewrite IH. destruct (collect l); auto. Qed.

Lemma evalTuple_map : forall E X Y (f : X -> Y) ord (fs hs : list (G E _)) r,
  Forall2 (fun (g : G E (X + err)) (h : G E (Y + err)) => forall r, h r = resMap f (g r)) fs hs ->
  evalTuple ord hs r = resMap (map f) (evalTuple ord fs r).
Proof.
  intros E X Y f ord fs hs r H. unfold evalTuple.
  assert (Hm : map (fun _ => @None Y) hs = map (option_map f) (map (fun _ => None) fs)).
  { clear -H. induction H; cbn; f_equal; auto. }
  unfold gbind. rewrite Hm, (evalIn_map _ _ _ _ _ _ _ _ _ H).
  destruct (evalIn ord fs (map (fun _ => None) fs) r) as [[[acc|e] q]| | |]; cbn; try reflexivity.
  rewrite collect_map. destruct (collect acc); reflexivity.
Qed.

Lemma evalTuple_mapG : forall E X Y (f : X -> Y) ord (fs : list (G E (X + err))) r,
  evalTuple ord (map (mapG f) fs) r = resMap (map f) (evalTuple ord fs r).
Proof.
  intros. apply evalTuple_map. induction fs; cbn; constructor; auto.
Qed.

Lemma xtree_ind3 : forall E A (P : xtree E A -> Prop) (Q : xstream E A -> Prop),
  (forall a shr, (forall r s r', shr r = Ok (inl s, r') -> Q s) -> P (XNode a shr)) ->
  Q XNil ->
  (forall h tl, P h -> (forall r s r', tl r = Ok (inl s, r') -> Q s) -> Q (XCons h tl)) ->
  (forall t, P t) /\ (forall s, Q s).
Proof.
  intros E A P Q HN HNil HC.
  assert (H : forall t, P t).
  { refine (fix F (t : xtree E A) : P t := _ with S (s : xstream E A) : Q s := _ for F).
    - destruct t as [a shr]. apply HN. intros r s r' Es.
      refine (match shr r as x return x = Ok (inl s, r') -> Q s with
              | Ok p => match p as p return Ok p = Ok (inl s, r') -> Q s with (x1, _) => match x1 with inl s1 => fun e => _ | inr _ => fun e => _ end end
              | _ => fun e => _ end Es); try discriminate.
      assert (e' : s1 = s) by congruence. rewrite <- e'. apply (S s1).
    - destruct s as [|h tl]; [exact HNil|]. apply HC; [apply F|]. intros r s r' Es.
      refine (match tl r as x return x = Ok (inl s, r') -> Q s with
              | Ok p => match p as p return Ok p = Ok (inl s, r') -> Q s with (x1, _) => match x1 with inl s1 => fun e => _ | inr _ => fun e => _ end end
              | _ => fun e => _ end Es); try discriminate.
      assert (e' : s1 = s) by congruence. rewrite <- e'. apply (S s1). }
  split; [exact H|].
  refine (fix S (s : xstream E A) : Q s := _). destruct s as [|h tl]; [exact HNil|]. apply HC; [apply H|]. intros r s r' Es.
  refine (match tl r as x return x = Ok (inl s, r') -> Q s with
              | Ok p => match p as p return Ok p = Ok (inl s, r') -> Q s with (x1, _) => match x1 with inl s1 => fun e => _ | inr _ => fun e => _ end end
              | _ => fun e => _ end Es); try discriminate.
  assert (e' : s1 = s) by congruence. rewrite <- e'. apply (S s1).
Qed.

(* agreement with RunnerModel *)
Lemma eroot_strict : forall E A (t : xtree E A), eroot (strict t) = xroot t.
Proof. destruct t; reflexivity. Qed.
Lemma map_eroot_strict : forall E A (l : list (xtree E A)), map eroot (map strict l) = map xroot l.
Proof. intros. rewrite map_map. apply map_ext. intros. apply eroot_strict. Qed.

(* outcomes, an exception counting as an end *)
Definition ending {E V W X Y} (f : X -> Y) (x : res ((X + err) * rs E V W)) : res (Y * rs E V W) :=
  match x with Ok (inl l, s) => Ok (f l, s) | Ok (inr e, _) => Throw e | UB => UB | Throw e => Throw e | OutOfFuel => OutOfFuel end.

Lemma test_ext : forall E V W (P P' : property E V W) N cur cur' v c s, func P = func P' -> onStartup P = onStartup P' -> onCleanup P = onCleanup P' ->
  map eroot cur = map eroot cur' -> test P N cur v c s = test P' N cur' v c s.
Proof. intros E V W P P' N cur cur' v c s H1 H2 H3 H4. unfold test, callFunc. rewrite H1, H2, H3, H4. reflexivity. Qed.

Lemma shrinkN_strict : forall E V W (X : xproperty E V W) N,
  (forall t cur s, shrinkTree (strictly X) N (set_nth N (strict t) (map strict cur)) (strict t) s = ending (map strict) (xshrinkTree X N cur t s)) /\
  (forall st cur c s, shrinkStream (strictly X) N (map strict cur) c (strict_s st) s = ending (map strict) (xshrinkStream X N cur c st s)).
Proof.
  intros E V W X N. apply xtree_ind3.
  - intros a shr IH cur s. cbn [strict xshrinkTree shrinkTree]. destruct (shr (rnd s)) as [[[st|e] r']| | |] eqn:K; try reflexivity.
    rewrite <- (IH _ _ _ K). rewrite set_nth_map. reflexivity.
  - intros cur c s. reflexivity.
  - intros h tl Hh IH cur c s. cbn [strict_s xshrinkStream shrinkStream]. destruct (tl (rnd s)) as [[[st|e] r']| | |] eqn:K; try reflexivity.
    rewrite eroot_strict.
    rewrite (test_ext _ _ _ (plain X) (strictly X) N (map (fun t => emake (xroot t)) cur) (map strict cur)) by
      (try reflexivity; rewrite map_eroot_strict, map_map; reflexivity).
    destruct (test (strictly X) N (map strict cur) (xroot h) c (with_rnd r' s)) as [[[b c'] s2]| | |]; try reflexivity. cbn [bind].
    destruct (negb b || hasFailures c'); [apply Hh|]. apply (IH _ _ _ K).
Qed.

Lemma shrinkEach_strict : forall E V W (X : xproperty E V W) ord streams cur s,
  shrinkEach (strictly X) ord (map strict_s streams) (map strict cur) s = ending (map strict) (xshrinkEach X ord streams cur s).
Proof.
  intros E V W X. induction ord as [|N o IH]; intros streams cur s; [reflexivity|]. cbn [xshrinkEach shrinkEach].
  rewrite nth_error_map. destruct (nth_error streams N) as [st|]; [|reflexivity]. cbn [option_map].
  rewrite (proj2 (shrinkN_strict E V W X N)). destruct (xshrinkStream X N cur newctx st s) as [[[l|e] s']| | |]; try reflexivity. cbn [ending bind]. apply IH.
Qed.

(* what a tuple of computations yields, an exception counting as an end *)
Lemma evalIn_end : forall E X Y (f : X -> Y) ord (fs : list (G E (X + err))) (hs : list (G E (Y + err))) acc r,
  Forall2 (fun g h => forall r, h r = match g r with Ok (inl a, q) => Ok (inl (f a), q) | Ok (inr e, _) => Throw e | UB => UB | Throw e => Throw e | OutOfFuel => OutOfFuel end) fs hs ->
  evalIn ord hs (map (option_map f) acc) r = match evalIn ord fs acc r with
    | Ok (inl a, q) => Ok (inl (map (option_map f) a), q) | Ok (inr e, _) => Throw e | UB => UB | Throw e => Throw e | OutOfFuel => OutOfFuel end.
Proof.
  intros E X Y f. induction ord as [|i o IH]; intros fs hs acc r H; [reflexivity|]. cbn [evalIn].
  assert (Hn : (nth_error fs i = None /\ nth_error hs i = None) \/ exists g h, nth_error fs i = Some g /\ nth_error hs i = Some h /\
    forall r, h r = match g r with Ok (inl a, q) => Ok (inl (f a), q) | Ok (inr e, _) => Throw e | UB => UB | Throw e => Throw e | OutOfFuel => OutOfFuel end).
  { clear IH. revert i. induction H as [|g h fs hs Hgh _ IHf]; intros [|i]; cbn; eauto 8. }
  destruct Hn as [[-> ->]|(g & h & -> & -> & Hgh)]; [reflexivity|]. unfold gbind. rewrite Hgh.
  destruct (g r) as [[[a|e] q]| | |]; try reflexivity.
  change (Some (f a)) with (option_map f (Some a)). rewrite <- set_nth_map. apply IH; auto.
Qed.

Lemma evalTuple_end : forall E X Y (f : X -> Y) ord (fs : list (G E (X + err))) (hs : list (G E (Y + err))) r,
  Forall2 (fun g h => forall r, h r = match g r with Ok (inl a, q) => Ok (inl (f a), q) | Ok (inr e, _) => Throw e | UB => UB | Throw e => Throw e | OutOfFuel => OutOfFuel end) fs hs ->
  evalTuple ord hs r = match evalTuple ord fs r with
    | Ok (inl a, q) => Ok (inl (map f a), q) | Ok (inr e, _) => Throw e | UB => UB | Throw e => Throw e | OutOfFuel => OutOfFuel end.
Proof.
  intros E X Y f ord fs hs r H. unfold evalTuple.
  assert (Hm : map (fun _ => @None Y) hs = map (option_map f) (map (fun _ => None) fs)).
  { clear -H. induction H; cbn; f_equal; auto. }
  unfold gbind. rewrite Hm, (evalIn_end _ _ _ _ _ _ _ _ _ H).
  destruct (evalIn ord fs (map (fun _ => None) fs) r) as [[[acc|e] q]| | |]; cbn; try reflexivity.
  rewrite collect_map. destruct (collect acc); reflexivity.
Qed.

Lemma shrink_strict : forall E V W ev (X : xproperty E V W) s, shrink ev (strictly X) s = ending (fun x => x) (xshrink ev X s).
Proof.
  intros E V W ev X s. unfold shrink, xshrink.
  change (gens (strictly X)) with (map (mapG (E := E) (strict (A := V))) (xgens X)). rewrite evalTuple_mapG.
  destruct (evalTuple (ord_regen ev) (xgens X) (rnd s)) as [[[ts|e] r1]| | |]; try reflexivity. cbn [resMap mapR bind].
  rewrite (evalTuple_end E _ _ strict_s (ord_shrinks ev) (map xshrinks ts)).
  2:{ rewrite map_map. clear. induction ts as [|[a shr] ts IH]; cbn; constructor; auto. intros r. unfold gbind. cbn.
      destruct (shr r) as [[[st|e] q]| | |]; reflexivity. }
  destruct (evalTuple (ord_shrinks ev) (map xshrinks ts) r1) as [[[streams|e] r2]| | |]; try reflexivity. cbn [bind].
  rewrite shrinkEach_strict. destruct (xshrinkEach X (ord_each ev) streams ts (with_rnd r2 s)) as [[[ts'|e] s2]| | |]; try reflexivity.
  cbn [ending bind]. rewrite !map_eroot_strict. reflexivity.
Qed.

Lemma attempt_ext : forall E V W ev (P P' : property E V W) s, func P = func P' -> onStartup P = onStartup P' -> onCleanup P = onCleanup P' ->
  (forall r, resMap (map eroot) (evalTuple (ord_call ev) (gens P) r) = resMap (map eroot) (evalTuple (ord_call ev) (gens P') r)) ->
  attempt ev P s = attempt ev P' s.
Proof.
  intros E V W ev P P' s H1 H2 H3 H4. unfold attempt. rewrite H2. destruct (runHook (onStartup P') EStartup s) as [[e|] s1]; [reflexivity|].
  specialize (H4 (rnd s1)). destruct (evalTuple (ord_call ev) (gens P) (rnd s1)) as [[[ts|e] q]| | |];
    destruct (evalTuple (ord_call ev) (gens P') (rnd s1)) as [[[ts'|e'] q']| | |]; cbn in H4; inversion H4; subst; try reflexivity.
  cbn [bind]. unfold callFunc. rewrite H1, H3. rewrite H0. reflexivity.
Qed.

Lemma attempt_strict : forall E V W ev (X : xproperty E V W) s, attempt ev (strictly X) s = attempt ev (plain X) s.
Proof.
  intros. apply attempt_ext; try reflexivity. intros r. unfold plain, strictly. cbn [gens].
  change (map valued (xgens X)) with (map (mapG (E := E) (fun t : xtree E V => emake (E := E) (xroot t))) (xgens X)).
  change (map (fun g : G E (xtree E V + err) => gbind g (fun x => gret (match x with inl t => inl (strict t) | inr e => inr e end))) (xgens X))
    with (map (mapG (E := E) (strict (A := V))) (xgens X)).
  rewrite !evalTuple_mapG. destruct (evalTuple (ord_call ev) (xgens X) r) as [[[ts|e] q]| | |]; try reflexivity. cbn. do 3 f_equal.
  rewrite !map_map. apply map_ext. intros. cbn. apply eroot_strict.
Qed.

Lemma history_strict : forall E V W ev (X : xproperty E V W) s ks s', history ev (strictly X) s ks s' <-> history ev (plain X) s ks s'.
Proof.
  intros E V W ev X s ks s'. split; induction 1; try constructor;
    [eapply h_true|eapply h_success|eapply h_discard|eapply h_true|eapply h_success|eapply h_discard]; eauto; try (rewrite <- attempt_strict; eassumption); rewrite attempt_strict; eassumption.
Qed.
Lemma falsifies_strict : forall E V W ev (X : xproperty E V W) s why s', falsifies ev (strictly X) s why s' <-> falsifies ev (plain X) s why s'.
Proof.
  intros E V W ev X s why s'. split; intros H; destruct H.
  1-3: rewrite attempt_strict in H. 4-6: rewrite <- attempt_strict in H.
  1,4: eapply f_expectation; eauto. 1,3: eapply f_false; eauto. all: eapply f_exception; eauto.
Qed.

(* general structure *)
Lemma course_app : forall E V W ev (X : xproperty E V W) s l s', course ev X s l s' -> forall l' s'', course ev X s' l' s'' -> course ev X s (l ++ l') s''.
Proof.
  induction 1 as [s|s k s1 l s' Hh _ IH|s why s1 e s2 k l s' Hf Hw Hx Hk _ IH]; intros l' s'' H'; cbn [app]; auto.
  - eapply co_step; eauto.
  - eapply co_lost; eauto.
Qed.

Definition somes (l : list (kind * option reason)) : list reason := flat_map (fun x => match snd x with Some w => [w] | None => [] end) l.

Lemma announcements_app : forall l l' i, announcements i (l ++ l') = announcements i l ++ announcements (i + passes (map fst l)) l'.
Proof.
  induction l as [|[k o] l IH]; intros l' i; cbn [app announcements map fst].
  - unfold passes. cbn. rewrite Nat.add_0_r. reflexivity.
  - rewrite IH, <- app_assoc. f_equal. f_equal. f_equal. destruct k; unfold passes; cbn; lia.
Qed.

Lemma announcements_discards : forall l n i, map fst l = repeat Discarded n -> announcements i l = map (fun w => (S i, w)) (somes l).
Proof.
  induction l as [|[k o] l IH]; intros n i H; [reflexivity|]. destruct n; [discriminate|]. inversion H as [[Hk Hl]]. subst. cbn [announcements somes flat_map snd].
  rewrite map_app. rewrite (IH _ _ Hl). destruct o; reflexivity.
Qed.

Lemma map_fst_snoc : forall (l : list (kind * option reason)) n, map fst l = repeat Discarded n ++ [Passed] ->
  exists l' o, l = l' ++ [(Passed, o)] /\ map fst l' = repeat Discarded n.
Proof.
  intros l n H. destruct (exists_last (l := l)) as [l' [[k o] ->]]; [intros ->; destruct n; discriminate|].
  rewrite map_app in H. cbn in H. apply app_inj_tail in H. destruct H as [H ->]. eauto.
Qed.

Lemma announcements_run : forall l n i, map fst l = repeat Discarded n ++ [Passed] -> announcements i l = map (fun w => (S i, w)) (somes l).
Proof.
  intros l n i H. destruct (map_fst_snoc _ _ H) as [l' [o [-> H']]]. rewrite announcements_app, (announcements_discards _ _ _ H'). rewrite H', passes_repeat, Nat.add_0_r.
  unfold somes. rewrite flat_map_app, map_app. f_equal. cbn. rewrite !app_nil_r. destruct o; reflexivity.
Qed.

Lemma handler_ok : forall E V W ev (X : xproperty E V W) ann e s st, handler ev X ann e s = Ok st ->
  exists rep s', xshrink ev X s = Ok (inl rep, s') /\ st = XSFailed (ann ++ [RException e]) rep s'.
Proof.
  intros E V W ev X ann e s st H. unfold handler in H. apply bind_ok in H. destruct H as [[x s'] [H1 H]]. destruct x as [rep|e']; [|discriminate].
  inversion H; subst. eauto.
Qed.

(* what the branch of a failing attempt does *)
Definition fell {E V W} fuel (ev : env E) (X : xproperty E V W) ann why (s s1 s2 : rs E V W) : res (xstep E V W) :=
  do '(x, s3) <- xshrink ev X (with_rnd (rnd s) s2);
  match x with
  | inl rep => Ok (XSFailed (ann ++ [why]) rep s3)
  | inr ESuccess => Ok (XSPassed (ann ++ [why]) (with_rnd (rnd s1) s3))
  | inr EDiscard => xretryRun fuel ev X (ann ++ [why]) (with_rnd (rnd s1) s3)
  | inr ENonStd => Throw ENonStd
  | inr e => handler ev X (ann ++ [why]) e s3
  end.

Definition signal (e : err) : bool := match e with ESuccess | EDiscard | ENonStd => true | _ => false end.
Lemma xretry_unfold : forall E V W fuel ev (X : xproperty E V W) ann s, xretryRun (S fuel) ev X ann s =
  do '(o, s1) <- attempt ev (plain X) s;
  match o with
  | AReturned b =>
      match failures (cx s1) with
      | _ :: _ => fell fuel ev X ann (RExpectation (failures (cx s1))) s s1 (with_cx (snd (ctx_flush (cx s1))) s1)
      | [] => if b then Ok (XSPassed ann s1) else fell fuel ev X ann RFalse s s1 s1
      end
  | AThrew ESuccess => Ok (XSPassed ann s1)
  | AThrew EDiscard => xretryRun fuel ev X ann s1
  | AThrew ENonStd => Throw ENonStd
  | AThrew e => handler ev X ann e (with_rnd (rnd s) s1)
  end.
Proof.
  intros. cbn [xretryRun]. destruct (attempt ev (plain X) s) as [[o s1]| | |]; try reflexivity. cbn [bind]. destruct o as [b|e]; [|reflexivity].
  pose proof (flush_none E V W s1) as Hn. destruct (ctx_flush (cx s1)) as [fs c'] eqn:Ec. cbn [snd] in *.
  assert (Hfs : fs = failures (cx s1)) by (unfold ctx_flush in Ec; inversion Ec; auto). subst fs.
  destruct (failures (cx s1)) eqn:Ef; [|reflexivity]. rewrite Hn by auto. reflexivity.
Qed.

Definition xstep_ok {E V W} (ev : env E) (X : xproperty E V W) (ann : list reason) (s : rs E V W) (st : xstep E V W) : Prop :=
  match st with
  | XSPassed a s' => exists n l, course ev X s l s' /\ map fst l = repeat Discarded n ++ [Passed] /\ a = ann ++ somes l
  | XSFailed a rep s' => exists n l s0 whys, course ev X s l s0 /\ map fst l = repeat Discarded n /\ fails ev X s0 whys rep s' /\ a = ann ++ somes l ++ whys
  end.

Lemma fell_ok : forall E V W fuel ev (X : xproperty E V W) ann why s s1 s2 st,
  (forall ann s st, xretryRun fuel ev X ann s = Ok st -> xstep_ok ev X ann s st) ->
  falsifies ev (plain X) s why s2 -> (forall x, why <> RException x) -> rnd s2 = rnd s1 ->
  fell fuel ev X ann why s s1 s2 = Ok st -> xstep_ok ev X ann s st.
Proof.
  intros E V W fuel ev X ann why s s1 s2 st IH Hf Hw Hr H. unfold fell in H. apply bind_ok in H. destruct H as [[x s3] [Hx H]]. destruct x as [rep|e].
  - inversion H; subst. exists 0%nat, [], s, [why]. split; [constructor|]. split; [reflexivity|]. split; [eapply fa_once; eauto|]. reflexivity.
  - rewrite <- Hr in H. assert (Hp : forall e', e = e' -> noSignal e' -> e' <> ENonStd -> handler ev X (ann ++ [why]) e' s3 = Ok st -> xstep_ok ev X ann s st).
    { intros e' <- H1 H2 H3. apply handler_ok in H3. destruct H3 as [rep [s' [H3 ->]]]. exists 0%nat, [], s, [why; RException e].
      split; [constructor|]. split; [reflexivity|]. split; [eapply fa_twice; eauto|]. cbn. rewrite <- app_assoc. reflexivity. }
    destruct e; try discriminate; try (eapply Hp; [reflexivity|split; discriminate|discriminate|exact H]).
    + apply IH in H. destruct st as [a s'|a rep s'].
      * destruct H as [n [l [H1 [H2 ->]]]]. exists (S n), ((Discarded, Some why) :: l). split; [eapply co_lost; eauto|]. cbn [map fst somes flat_map snd]. rewrite H2. split; auto.
        rewrite <- app_assoc. reflexivity.
      * destruct H as [n [l [s0 [whys [H1 [H2 [H3 ->]]]]]]]. exists (S n), ((Discarded, Some why) :: l), s0, whys. split; [eapply co_lost; eauto|].
        cbn [map fst somes flat_map snd]. rewrite H2. split; auto. split; auto. rewrite <- app_assoc. reflexivity.
    + inversion H; subst. exists 0%nat, [(Passed, Some why)]. split; [eapply co_lost; eauto; constructor|]. split; reflexivity.
Qed.

Lemma xretry_ok : forall E V W fuel ev (X : xproperty E V W) ann s st, xretryRun fuel ev X ann s = Ok st -> xstep_ok ev X ann s st.
Proof.
  intros E V W. induction fuel as [|fuel IH]; intros ev X ann s st H; [discriminate|]. rewrite xretry_unfold in H.
  apply bind_ok in H. destruct H as [[o s1] [Ha H]]. destruct o as [b|e].
  - destruct (failures (cx s1)) as [|f fs] eqn:Ef.
    + destruct b.
      * inversion H; subst. exists 0%nat, [(Passed, None)]. split; [|split; [reflexivity|cbn; rewrite app_nil_r; reflexivity]].
        eapply co_step; [|constructor]. eapply h_true; eauto. constructor.
      * eapply (fell_ok E V W fuel ev X ann RFalse s s1 s1 st); auto; [apply f_false; auto|discriminate].
    + rewrite <- Ef in H. apply (fell_ok E V W fuel ev X ann (RExpectation (failures (cx s1))) s s1 (with_cx (snd (ctx_flush (cx s1))) s1) st); [auto| |discriminate|reflexivity|exact H].
      eapply f_expectation; eauto. congruence.
  - assert (Hp : forall e', e = e' -> noSignal e' -> e' <> ENonStd -> handler ev X ann e' (with_rnd (rnd s) s1) = Ok st -> xstep_ok ev X ann s st).
    { intros e' <- H1 H2 H3. apply handler_ok in H3. destruct H3 as [rep [s' [H3 ->]]]. exists 0%nat, [], s, [RException e].
      split; [constructor|]. split; [reflexivity|]. split; [|reflexivity]. eapply fa_once; eauto. destruct H1. apply f_exception; auto. }
    destruct e; try discriminate; try (eapply Hp; [reflexivity|split; discriminate|discriminate|exact H]).
    + apply IH in H. assert (Hh : history ev (plain X) s [Discarded] s1) by (eapply h_discard; eauto; constructor). destruct st as [a s'|a rep s'].
      * destruct H as [n [l [H1 [H2 ->]]]]. exists (S n), ((Discarded, None) :: l). split; [eapply co_step; eauto|]. cbn [map fst somes flat_map snd]. rewrite H2. auto.
      * destruct H as [n [l [s0 [whys [H1 [H2 [H3 ->]]]]]]]. exists (S n), ((Discarded, None) :: l), s0, whys. split; [eapply co_step; eauto|].
        cbn [map fst somes flat_map snd]. rewrite H2. auto.
    + inversion H; subst. exists 0%nat, [(Passed, None)]. split; [|split; [reflexivity|cbn; rewrite app_nil_r; reflexivity]].
      eapply co_step; [|constructor]. eapply h_success; eauto. constructor.
Qed.

Lemma inTime_false : forall E V W ev (P : property E V W) i,
  (negb (maxDurationMs P =? 0)%Z && (maxDurationMs P <? elapsed ev i)%Z) = false <-> inTime ev P i.
Proof. intros. apply in_time_false. Qed.

Lemma xloop_ok : forall E V W fuel ev (X : xproperty E V W) n i ann s v ann' s', xrunLoop fuel ev X n i ann s = Ok (v, ann', s') ->
  match v with
  | XPassed sm => sm = printSummary (cx s') /\ exists l, course ev X s l s' /\ passes (map fst l) = n /\ ends_in (fun k => k = Passed) (map fst l)
       /\ ann' = ann ++ announcements i l /\ forall j, (i <= j < i + n)%nat -> inTime ev (base X) j
  | XTimedOut k sm => sm = printSummary (cx s') /\ exists l, course ev X s l s' /\ (passes (map fst l) < n)%nat /\ k = (i + passes (map fst l))%nat
       /\ ends_in (fun k => k = Passed) (map fst l) /\ ann' = ann ++ announcements i l /\ (forall j, (i <= j < k)%nat -> inTime ev (base X) j) /\ ~ inTime ev (base X) k
  | XFalsified rep => exists l s0 whys, course ev X s l s0 /\ (passes (map fst l) < n)%nat /\ fails ev X s0 whys rep s'
       /\ ann' = ann ++ announcements i l ++ map (fun w => (S (i + passes (map fst l)), w)) whys
       /\ forall j, (i <= j <= i + passes (map fst l))%nat -> inTime ev (base X) j
  end.
Proof.
  intros E V W fuel ev X. induction n as [|n IH]; intros i ann s v ann' s' H; cbn [xrunLoop] in H.
  - inversion H; subst. split; auto. exists []. split; [constructor|]. split; [reflexivity|]. split; [left; auto|]. split; [cbn; rewrite app_nil_r; auto|]. intros. lia.
  - destruct (negb (maxDurationMs (base X) =? 0)%Z && (maxDurationMs (base X) <? elapsed ev i)%Z) eqn:Et.
    { inversion H; subst. split; auto. exists []. split; [constructor|]. unfold passes. cbn. split; [lia|]. split; [lia|]. split; [left; auto|].
      split; [rewrite app_nil_r; auto|]. split; [intros; lia|]. rewrite <- inTime_false, Et. discriminate. }
    apply inTime_false in Et. apply bind_ok in H. destruct H as [st [Hr H]]. apply xretry_ok in Hr. destruct st as [a s2|a rep s2].
    + destruct Hr as [k [l [Hc [Hm ->]]]]. cbn [app] in H. specialize (IH _ _ _ _ _ _ H).
      rewrite <- (announcements_run _ _ i Hm) in IH.
      assert (Hp : forall l', passes (map fst (l ++ l')) = S (passes (map fst l'))).
      { intros. rewrite map_app, Hm, !passes_app, passes_repeat. reflexivity. }
      assert (Hp1 : (i + passes (map fst l) = S i)%nat) by (rewrite Hm, passes_app, passes_repeat; cbn; lia).
      assert (He : forall l', ends_in (fun k => k = Passed) (map fst l') -> ends_in (fun k => k = Passed) (map fst (l ++ l'))).
      { intros l' [He|[l1 [x [He Hx]]]]; right; rewrite map_app, Hm, He; [exists (repeat Discarded k), Passed; rewrite app_nil_r; auto|].
        exists ((repeat Discarded k ++ [Passed]) ++ l1), x. rewrite <- !app_assoc. auto. }
      assert (Ha : forall l', announcements i (l ++ l') = announcements i l ++ announcements (S i) l') by (intros; rewrite announcements_app, Hp1; auto).
      destruct v as [sm|kk sm|rep].
      * destruct IH as [Hs [l' [H1 [H2 [H3 [H4 H5]]]]]]. split; auto. exists (l ++ l'). split; [eapply course_app; eauto|]. rewrite Hp, Ha. split; auto. split; auto.
        split; [rewrite H4, <- app_assoc; auto|]. intros j Hj. destruct (Nat.eq_dec j i); subst; auto. apply H5. lia.
      * destruct IH as [Hs [l' [H1 [H2 [H3 [H4 [H5 [H6 H7]]]]]]]]. split; auto. exists (l ++ l'). split; [eapply course_app; eauto|]. rewrite Hp, Ha. split; [lia|]. split; [lia|]. split; auto.
        split; [rewrite H5, <- app_assoc; auto|]. split; auto. intros j Hj. destruct (Nat.eq_dec j i); subst; auto. apply H6. lia.
      * destruct IH as [l' [s0 [whys [H1 [H2 [H3 [H4 H5]]]]]]]. exists (l ++ l'), s0, whys. split; [eapply course_app; eauto|]. rewrite Hp, Ha. split; [lia|]. split; auto.
        replace (i + S (passes (map fst l')))%nat with (S i + passes (map fst l'))%nat by lia. split; [rewrite H4, <- !app_assoc; auto|]. intros j Hj. destruct (Nat.eq_dec j i); subst; auto. apply H5. lia.
    + destruct Hr as [k [l [s0 [whys [Hc [Hm [Hf ->]]]]]]]. inversion H; subst. exists l, s0, whys. rewrite Hm, passes_repeat, Nat.add_0_r. split; auto. split; [lia|]. split; auto.
      split; [cbn [app]; rewrite map_app, (announcements_discards _ _ i Hm); auto|]. intros j Hj. replace j with i by lia. auto.
Qed.

(* the exact relation with RunnerModel *)
Lemma fails_length : forall E V W ev (X : xproperty E V W) s whys rep s', fails ev X s whys rep s' -> (1 <= length whys)%nat.
Proof. intros E V W ev X s whys rep s' H. destruct H; cbn; lia. Qed.

Lemma same_length : forall A (l m : list A) n, l = m -> length l = n -> length m = n.
Proof. intros. subst. auto. Qed.

Ltac lens H := apply (f_equal (@length _)) in H; repeat (rewrite ?app_length, ?map_length in H; cbn [length] in H).

Lemma fell_exact : forall E V W fuel ev (X : xproperty E V W) ann why s s1 s2,
  (forall s', fell fuel ev X ann why s s1 s2 = Ok (XSPassed ann s') -> False) /\
  (forall why' rep s', fell fuel ev X ann why s s1 s2 = Ok (XSFailed (ann ++ [why']) rep s') ->
     why' = why /\ shrink ev (strictly X) (with_rnd (rnd s) s2) = Ok (rep, s')).
Proof.
  intros E V W fuel ev X ann why s s1 s2. unfold fell. rewrite shrink_strict.
  destruct (xshrink ev X (with_rnd (rnd s) s2)) as [[x s3]| | |]; try (split; intros; discriminate). cbn [bind ending]. destruct x as [rep|e].
  { split; intros; [discriminate|]. inversion H as [[Ha Hr Hs]]. apply app_inj_tail in Ha. destruct Ha. subst. auto. }
  assert (Hh : forall e', (forall s', handler ev X (ann ++ [why]) e' s3 = Ok (XSPassed ann s') -> False) /\
    (forall why' rep s', handler ev X (ann ++ [why]) e' s3 = Ok (XSFailed (ann ++ [why']) rep s') -> why' = why /\ Throw e = Ok (rep, s'))).
  { intros e'. split; intros.
    - apply handler_ok in H. destruct H as [? [? [_ H]]]. discriminate.
    - apply handler_ok in H. destruct H as [? [? [_ H]]]. inversion H as [[Ha Hr Hs]]. lens Ha. lia. }
  destruct e; try (apply Hh; fail); try (split; intros; discriminate).
  - split; intros.
    + apply xretry_ok in H. destruct H as [n [l [_ [_ H]]]]. lens H. lia.
    + apply xretry_ok in H. destruct H as [n [l [s0 [whys [_ [_ [Hf H]]]]]]]. apply fails_length in Hf. lens H. lia.
  - split; intros; inversion H as [[Ha Hs]]. lens Ha. lia.
Qed.

Lemma retry_unfold : forall E V W fuel ev (P : property E V W) s, retryRun (S fuel) ev P s =
  do '(o, s1) <- attempt ev P s;
  match o with
  | AReturned b =>
      match failures (cx s1) with
      | _ :: _ => Ok (SFailed (RExpectation (failures (cx s1))) (rnd s) (with_cx (snd (ctx_flush (cx s1))) s1))
      | [] => if b then Ok (SPassed s1) else Ok (SFailed RFalse (rnd s) s1)
      end
  | AThrew ESuccess => Ok (SPassed s1)
  | AThrew EDiscard => retryRun fuel ev P s1
  | AThrew ENonStd => Throw ENonStd
  | AThrew e => Ok (SFailed (RException e) (rnd s) s1)
  end.
Proof.
  intros. cbn [retryRun]. destruct (attempt ev P s) as [[o s1]| | |]; try reflexivity. cbn [bind]. destruct o as [b|e]; [|reflexivity].
  pose proof (flush_none E V W s1) as Hn. destruct (ctx_flush (cx s1)) as [fs c'] eqn:Ec. cbn [snd] in *.
  assert (Hfs : fs = failures (cx s1)) by (unfold ctx_flush in Ec; inversion Ec; auto). subst fs.
  destruct (failures (cx s1)) eqn:Ef; [|reflexivity]. rewrite Hn by auto. reflexivity.
Qed.

Lemma ending_id : forall E V W (x : res ((report V + err) * rs E V W)) rep s', ending (fun y => y) x = Ok (rep, s') -> x = Ok (inl rep, s').
Proof. intros E V W x rep s' H. destruct x as [[[y|e] q]| | |]; cbn in H; try discriminate. inversion H. reflexivity. Qed.

Lemma retry_exact : forall E V W ev (X : xproperty E V W) fuel ann s,
  (forall s', retryRun fuel ev (strictly X) s = Ok (SPassed s') <-> xretryRun fuel ev X ann s = Ok (XSPassed ann s')) /\
  (forall why rep s', (exists saved s1, retryRun fuel ev (strictly X) s = Ok (SFailed why saved s1) /\ shrink ev (strictly X) (with_rnd saved s1) = Ok (rep, s'))
     <-> xretryRun fuel ev X ann s = Ok (XSFailed (ann ++ [why]) rep s')).
Proof.
  intros E V W ev X. induction fuel as [|fuel IH]; intros ann s.
  { split; intros; split; intros H; try discriminate. destruct H as [? [? [H _]]]. discriminate. }
  rewrite retry_unfold, xretry_unfold, attempt_strict. destruct (attempt ev (plain X) s) as [[o s1]| | |];
    try (split; intros; split; intros H; try discriminate; destruct H as [? [? [H _]]]; discriminate).
  cbn [bind].
  assert (Hfall : forall why0 s2,
    (forall s', Ok (SFailed why0 (rnd s) s2) = Ok (SPassed s') <-> fell fuel ev X ann why0 s s1 s2 = Ok (XSPassed ann s')) /\
    (forall why rep s', (exists saved s1', Ok (SFailed why0 (rnd s) s2) = Ok (SFailed why saved s1') /\ shrink ev (strictly X) (with_rnd saved s1') = Ok (rep, s'))
     <-> fell fuel ev X ann why0 s s1 s2 = Ok (XSFailed (ann ++ [why]) rep s'))).
  { intros why0 s2. destruct (fell_exact E V W fuel ev X ann why0 s s1 s2) as [F1 F2]. split; intros; split; intros H; try discriminate.
    - exfalso. eauto.
    - destruct H as [saved [s1' [H Hs]]]. inversion H; subst. rewrite shrink_strict in Hs. apply ending_id in Hs. unfold fell. rewrite Hs. reflexivity.
    - apply F2 in H. destruct H as [-> H]. eauto. }
  assert (Hhand : forall e s2,
    (forall s', Ok (SFailed (RException e) (rnd s) s2) = Ok (SPassed s') <-> handler ev X ann e (with_rnd (rnd s) s2) = Ok (XSPassed ann s')) /\
    (forall why rep s', (exists saved s1', Ok (SFailed (RException e) (rnd s) s2) = Ok (SFailed why saved s1') /\ shrink ev (strictly X) (with_rnd saved s1') = Ok (rep, s'))
     <-> handler ev X ann e (with_rnd (rnd s) s2) = Ok (XSFailed (ann ++ [why]) rep s'))).
  { intros e s2. split; intros; split; intros H; try discriminate.
    - apply handler_ok in H. destruct H as [? [? [_ H]]]. discriminate.
    - destruct H as [saved [s1' [H Hs]]]. inversion H; subst. rewrite shrink_strict in Hs. apply ending_id in Hs. unfold handler. rewrite Hs. reflexivity.
    - apply handler_ok in H. destruct H as [rep' [s'' [Hs H]]]. inversion H as [[Ha Hr Hq]]. apply app_inj_tail in Ha. destruct Ha as [_ ->]. subst.
      exists (rnd s), s2. split; auto. rewrite shrink_strict, Hs. reflexivity. }
  assert (Hno : forall s2 (st : step E V W) (xst : xstep E V W), st = SPassed s2 -> xst = XSPassed ann s2 ->
    (forall s', Ok st = Ok (SPassed s') <-> Ok xst = Ok (XSPassed ann s')) /\
    (forall why rep s', (exists saved s1', Ok st = Ok (SFailed why saved s1') /\ shrink ev (strictly X) (with_rnd saved s1') = Ok (rep, s'))
     <-> Ok xst = Ok (XSFailed (ann ++ [why]) rep s'))).
  { intros s2 st xst -> ->. split; intros; split; intros H; try discriminate; try (inversion H; subst; reflexivity). destruct H as [? [? [H _]]]. discriminate. }
  destruct o as [b|e].
  - destruct (failures (cx s1)) as [|f fs]; [|apply Hfall]. destruct b; [|apply Hfall]. eapply Hno; reflexivity.
  - destruct e; try apply Hhand; try (eapply Hno; reflexivity).
    + apply IH.
    + split; intros; split; intros H; try discriminate. destruct H as [? [? [H _]]]. discriminate.
Qed.

Lemma announced_length : forall V (v : verdict V), length (announced v) = if xsucceeded (asX v) then 0%nat else 1%nat.
Proof. destruct v; reflexivity. Qed.

Lemma loop_exact : forall E V W fuel ev (X : xproperty E V W) n i ann s v s',
  runLoop fuel ev (strictly X) n i s = Ok (v, s') <-> xrunLoop fuel ev X n i ann s = Ok (asX v, ann ++ announced v, s').
Proof.
  intros E V W fuel ev X. induction n as [|n IH]; intros i ann s v s'; cbn [runLoop xrunLoop].
  - split; intros H.
    + inversion H; subst. cbn. rewrite app_nil_r. reflexivity.
    + inversion H as [[H1 H2 H3]]. destruct v; cbn in H1; inversion H1. subst. reflexivity.
  - change (maxDurationMs (strictly X)) with (maxDurationMs (base X)).
    destruct (negb (maxDurationMs (base X) =? 0)%Z && (maxDurationMs (base X) <? elapsed ev i)%Z).
    { split; intros H.
      - inversion H; subst. cbn. rewrite app_nil_r. reflexivity.
      - inversion H as [[H1 H2 H3]]. destruct v; cbn in H1; inversion H1. subst. reflexivity. }
    destruct (retry_exact E V W ev X fuel [] s) as [R1 R2]. split; intros H.
    + apply bind_ok in H. destruct H as [st [Hr H]]. destruct st as [s1|why saved s1].
      * apply R1 in Hr. rewrite Hr. cbn [bind map]. rewrite app_nil_r. apply IH. exact H.
      * apply bind_ok in H. destruct H as [[rep s2] [Hs H]]. inversion H; subst.
        assert (Hx : xretryRun fuel ev X [] s = Ok (XSFailed ([] ++ [why]) rep s')) by (apply R2; eauto). rewrite Hx. reflexivity.
    + apply bind_ok in H. destruct H as [st [Hr H]]. destruct st as [a s1|a rep s1].
      * pose proof (xloop_ok _ _ _ _ _ _ _ _ _ _ _ _ _ H) as Hl. assert (Ha : a = []).
        { apply length_zero_iff_nil. destruct v as [sm|k sm|t why rep]; cbn [asX announced] in *.
          - destruct Hl as [_ [l [_ [_ [_ [Hl _]]]]]]. lens Hl. lia.
          - destruct Hl as [_ [l [_ [_ [_ [_ [Hl _]]]]]]]. lens Hl. lia.
          - destruct Hl as [l [s0 [whys [_ [_ [Hf [Hl _]]]]]]]. apply fails_length in Hf. lens Hl. lia. }
        subst a. apply R1 in Hr. rewrite Hr. cbn [bind]. cbn [map] in H. rewrite app_nil_r in H. apply IH in H. exact H.
      * inversion H as [[H1 H2 H3]]. destruct v as [sm|k sm|t why rep']; cbn [asX] in H1; inversion H1; subst rep'. cbn [announced] in H2. apply app_inv_head in H2.
        destruct a as [|w [|w' a]]; try discriminate. inversion H2; subst. pose proof (proj2 (R2 why rep s') Hr) as [saved [s1 [Q1 Q2]]].
        rewrite Q1. cbn [bind]. rewrite Q2. reflexivity.
Qed.

(* what can be thrown *)
Definition okG {E X} (PX : X -> Prop) (Q : err -> Prop) (g : G E (X + err)) : Prop :=
  forall r, match g r with Ok (inl x, _) => PX x | Ok (inr e, _) => Q e | Throw _ => False | _ => True end.

Lemma evalIn_okG : forall E X (PX : X -> Prop) Q ord (fs : list (G E (X + err))) acc, Forall (okG PX Q) fs ->
  Forall (fun o => match o with Some x => PX x | None => True end) acc ->
  okG (Forall (fun o => match o with Some x => PX x | None => True end)) Q (evalIn ord fs acc).
Proof.
  intros E X PX Q. induction ord as [|i o IH]; intros fs acc Hf Ha r; [exact Ha|]. cbn [evalIn].
  destruct (nth_error fs i) as [g|] eqn:En; [|exact I]. apply nth_error_In in En. rewrite Forall_forall in Hf. pose proof (Hf _ En r) as Hg. unfold gbind.
  destruct (g r) as [[[a|e] q]| | |]; auto. apply IH; [apply Forall_forall; auto|]. clear -Ha Hg. revert i.
  induction Ha as [|y acc Hy Ha IHa]; intros [|i]; cbn; constructor; auto.
Qed.

Lemma collect_Forall : forall X (PX : X -> Prop) acc l, Forall (fun o => match o with Some x => PX x | None => True end) acc -> collect acc = Some l -> Forall PX l.
Proof.
  intros X PX. induction acc as [|[x|] acc IH]; intros l H Hc; cbn in Hc; try discriminate.
  - inversion Hc; constructor.
  - inversion H; subst. destruct (collect acc) as [l'|]; [|discriminate]. inversion Hc; subst. constructor; auto.
Qed.

Lemma evalTuple_okG : forall E X (PX : X -> Prop) Q ord (fs : list (G E (X + err))), Forall (okG PX Q) fs -> okG (Forall PX) Q (evalTuple ord fs).
Proof.
  intros E X PX Q ord fs Hf r. unfold evalTuple, gbind.
  pose proof (evalIn_okG E X PX Q ord fs (map (fun _ => None) fs) Hf) as H. specialize (H ltac:(clear; induction fs; cbn; constructor; auto) r).
  destruct (evalIn ord fs (map (fun _ => None) fs) r) as [[[acc|e] q]| | |]; auto. cbn. destruct (collect acc) as [l|] eqn:Ec; [|exact I].
  cbn. eapply collect_Forall; eauto.
Qed.

Lemma test_throw : forall E V W (P : property E V W) N cur v c s e, test P N cur v c s = Throw e -> e = ENonStd.
Proof.
  intros E V W P N cur v c s e H. unfold test in H. destruct (runHook (onStartup P) EStartup (with_cx c s)) as [[x|] s1].
  { destruct x; try discriminate. inversion H. auto. }
  destruct (callFunc P (set_nth N v (map eroot cur)) s1) as [[b|x] s2].
  2:{ destruct x; try discriminate. inversion H. auto. }
  destruct (runHook (onCleanup P) ECleanup s2) as [[x|] s3]; [|discriminate]. destruct x; try discriminate. inversion H. auto.
Qed.

Definition okS {E V W X} (PX : X -> Prop) (Q : err -> Prop) (x : res ((X + err) * rs E V W)) : Prop :=
  match x with Ok (inl y, _) => PX y | Ok (inr e, _) => Q e | Throw e => e = ENonStd | _ => True end.

Lemma set_nth_Forall : forall A (P : A -> Prop) i a l, P a -> Forall P l -> Forall P (set_nth i a l).
Proof. intros A P i a l Ha Hl. revert i. induction Hl; intros [|i]; cbn; constructor; auto. Qed.

Lemma shrinkN_all : forall E V W (X : xproperty E V W) Q N,
  (forall t, xall Q t -> forall cur s, Forall (xall Q) cur -> okS (Forall (xall Q)) Q (xshrinkTree X N cur t s)) /\
  (forall st, xall_s Q st -> forall cur c s, Forall (xall Q) cur -> okS (Forall (xall Q)) Q (xshrinkStream X N cur c st s)).
Proof.
  intros E V W X Q N. apply xtree_ind3.
  - intros a shr IH Ht cur s Hc. cbn [xshrinkTree]. pose proof (Ht (rnd s)) as Hs. destruct (shr (rnd s)) as [[[st|e] q]| | |] eqn:K; cbn; auto; try contradiction.
    apply (IH _ _ _ K); auto. apply set_nth_Forall; auto.
  - intros _ cur c s Hc. exact Hc.
  - intros h tl Hh IH [H1 H2] cur c s Hc. cbn [xshrinkStream]. specialize (H2 (rnd s)). destruct (tl (rnd s)) as [[[st|e] q]| | |] eqn:K; cbn [okS]; auto; try contradiction.
    destruct (test (plain X) N (map (fun t => emake (xroot t)) cur) (xroot h) c (with_rnd q s)) as [[[b c'] s2]| | |] eqn:Et; cbn [bind okS]; auto.
    + destruct (negb b || hasFailures c'); [apply Hh; auto|]. apply (IH _ _ _ K); auto.
    + eapply test_throw; eauto.
Qed.

Lemma shrinkEach_all : forall E V W (X : xproperty E V W) Q ord streams cur s, Forall (xall_s Q) streams -> Forall (xall Q) cur ->
  okS (Forall (xall Q)) Q (xshrinkEach X ord streams cur s).
Proof.
  intros E V W X Q. induction ord as [|N o IH]; intros streams cur s Hs Hc; [exact Hc|]. cbn [xshrinkEach].
  destruct (nth_error streams N) as [st|] eqn:En; [|exact I]. apply nth_error_In in En. rewrite Forall_forall in Hs. pose proof (Hs _ En) as Hst.
  pose proof (proj2 (shrinkN_all E V W X Q N) st Hst cur newctx s Hc) as H.
  destruct (xshrinkStream X N cur newctx st s) as [[[l|e] s']| | |]; cbn [bind okS] in *; auto. apply IH; auto. apply Forall_forall. auto.
Qed.

(* the part of shrink after regeneration *)
Definition reduce {E V W} (ev : env E) (X : xproperty E V W) (s : rs E V W) (ts : list (xtree E V)) r1 : res ((report V + err) * rs E V W) :=
  do '(y, r2) <- evalTuple (ord_shrinks ev) (map xshrinks ts) r1;
  match y with
  | inr e => Ok (inr e, with_rnd r2 s)
  | inl streams =>
      do '(z, s') <- xshrinkEach X (ord_each ev) streams ts (with_rnd r2 s);
      match z with
      | inr e => Ok (inr e, s')
      | inl ts' => Ok (inl {| with_args := map xroot ts; simplest_args := map xroot ts' |}, s')
      end
  end.

Lemma reduce_all : forall E V W ev (X : xproperty E V W) Q s ts r1, Forall (xall Q) ts -> okS (fun rep => with_args rep = map xroot ts) Q (reduce ev X s ts r1).
Proof.
  intros E V W ev X Q s ts r1 Ht. unfold reduce.
  pose proof (evalTuple_okG E _ (xall_s Q) Q (ord_shrinks ev) (map xshrinks ts)) as H.
  specialize (H ltac:(clear -Ht; induction Ht as [|[a shr] ts Ha Ht IH]; cbn; constructor; auto) r1).
  destruct (evalTuple (ord_shrinks ev) (map xshrinks ts) r1) as [[[streams|e] r2]| | |]; cbn [bind okS]; auto; try contradiction.
  pose proof (shrinkEach_all E V W X Q (ord_each ev) streams ts (with_rnd r2 s) H Ht) as H2.
  destruct (xshrinkEach X (ord_each ev) streams ts (with_rnd r2 s)) as [[[l|e] s']| | |]; cbn [bind okS] in *; auto.
Qed.

Lemma evalTuple_P : forall E X (PX : X -> Prop) ord (fs : list (G E (X + err))) r l r',
  Forall (fun g => forall r x r', g r = Ok (inl x, r') -> PX x) fs -> evalTuple ord fs r = Ok (inl l, r') -> Forall PX l.
Proof.
  intros E X PX ord fs r l r' Hf H.


  assert (Hs : forall ord acc r l r', evalIn ord fs acc r = Ok (inl l, r') -> Forall (fun o => match o with Some x => PX x | None => True end) acc ->
    Forall (fun o => match o with Some x => PX x | None => True end) l).
  { clear H l r r' ord. induction ord as [|i o IH]; intros acc r l r' H Ha; cbn [evalIn] in H; [unfold gret in H; inversion H; subst; auto|].
    destruct (nth_error fs i) as [g|] eqn:En; [|discriminate]. apply nth_error_In in En. rewrite Forall_forall in Hf. unfold gbind in H.
    destruct (g r) as [[[a|e] q]| | |] eqn:Eg; try discriminate. eapply IH; [exact H|]. apply set_nth_Forall; auto. eapply Hf; eauto. }
  unfold evalTuple, gbind in H. destruct (evalIn ord fs (map (fun _ => None) fs) r) as [[[acc|e] q]| | |] eqn:Ei; try discriminate. cbn in H.
  destruct (collect acc) as [l'|] eqn:Ec; [|discriminate]. unfold gret in H. inversion H; subst. eapply collect_Forall; [|eauto]. eapply Hs; eauto.
  clear. induction fs; cbn; constructor; auto.
Qed.

Lemma xshrink_throws : forall E V W ev (X : xproperty E V W) Q s, Forall (shrinksThrow Q) (xgens X) -> Forall (genThrows Q) (xgens X) ->
  okS (fun _ => True) Q (xshrink ev X s).
Proof.
  intros E V W ev X Q s H1 H2. unfold xshrink. pose proof (evalTuple_okG E _ (xall Q) Q (ord_regen ev) (xgens X)) as H.
  assert (Hg : Forall (okG (xall Q) Q) (xgens X)).
  { rewrite Forall_forall in *. intros g Hg r. specialize (H1 g Hg r). specialize (H2 g Hg r). destruct (g r) as [[[t|e] q]| | |]; auto. eapply H1; eauto. }
  specialize (H Hg (rnd s)). destruct (evalTuple (ord_regen ev) (xgens X) (rnd s)) as [[[ts|e] r1]| | |]; cbn [bind okS]; auto; try contradiction.
  pose proof (reduce_all E V W ev X Q s ts r1 H) as Hr. fold (reduce ev X s ts r1). destruct (reduce ev X s ts r1) as [[[y|e] s']| | |]; cbn in *; auto.
Qed.

(* the inputs of an attempt that returned are regenerated *)
Lemma returned_values : forall E V W ev (P : property E V W) s b s1, attempt ev P s = Ok (AReturned b, s1) ->
  exists ts r1, evalTuple (ord_call ev) (gens P) (rnd s) = Ok (inl ts, r1).
Proof.
  intros E V W ev P s b s1 H. destruct (attempt_log _ _ _ _ _ _ _ _ H) as [seg [_ [C _]]]. unfold attempt_calls in C.
  destruct C as [[e [Eo _]]|[[e [r2 [Eo _]]]|[ts2 [r2 [Hx C]]]]]; try discriminate. eauto.
Qed.

Lemma regenerated : forall E V W ev (X : xproperty E V W) Q s b s1 s2, ord_regen ev = ord_call ev -> Forall (shrinksThrow Q) (xgens X) ->
  attempt ev (plain X) s = Ok (AReturned b, s1) -> okS (fun _ => True) Q (xshrink ev X (with_rnd (rnd s) s2)).
Proof.
  intros E V W ev X Q s b s1 s2 Ho Hs H. destruct (returned_values _ _ _ _ _ _ _ _ H) as [ts [r1 Ht]]. unfold xshrink. cbn [rnd with_rnd]. rewrite Ho.
  change (gens (plain X)) with (map (mapG (E := E) (fun t : xtree E V => emake (E := E) (xroot t))) (xgens X)) in Ht. rewrite evalTuple_mapG in Ht.
  destruct (evalTuple (ord_call ev) (xgens X) (rnd s)) as [[[us|e] q]| | |] eqn:Eu; try discriminate. cbn [bind].
  assert (Hu : Forall (xall Q) us) by (eapply evalTuple_P; [|exact Eu]; exact Hs).
  pose proof (reduce_all E V W ev X Q (with_rnd (rnd s) s2) us q Hu) as Hr. fold (reduce ev X (with_rnd (rnd s) s2) us q).
  destruct (reduce ev X (with_rnd (rnd s) s2) us q) as [[[y|e] s']| | |]; cbn in *; auto.
Qed.

Lemma falsifies_returned : forall E V W ev (P : property E V W) s why s1, falsifies ev P s why s1 -> (forall x, why <> RException x) ->
  exists b s2, attempt ev P s = Ok (AReturned b, s2).
Proof. intros E V W ev P s why s1 H Hw. destruct H; eauto. exfalso. eapply Hw. reflexivity. Qed.

Lemma course_mild : forall E V W ev (X : xproperty E V W) s l s', ord_regen ev = ord_call ev -> Forall (shrinksThrow noSignal) (xgens X) ->
  course ev X s l s' -> history ev (plain X) s (map fst l) s' /\ forall i, announcements i l = [].
Proof.
  intros E V W ev X s l s' Ho Hs H. induction H as [s|s k s1 l s' Hh _ [IH1 IH2]|s why s1 e s2 k l s' Hf Hw Hx Hk _ IH].
  - split; [constructor|reflexivity].
  - split; [|intros; cbn; apply IH2]. cbn [map fst]. change (k :: map fst l) with ([k] ++ map fst l). eapply history_app; eauto.
  - exfalso. destruct (falsifies_returned _ _ _ _ _ _ _ _ Hf Hw) as [b [s3 Ha]]. pose proof (regenerated _ _ _ _ _ _ _ _ _ s1 Ho Hs Ha) as Hr.
    rewrite Hx in Hr. cbn in Hr. destruct Hr. destruct Hk as [[-> _]|[-> _]]; auto.
Qed.

(* exceptions that leave forAll *)
Lemma handler_throws : forall E V W ev (X : xproperty E V W) Q ann e s e', Forall (shrinksThrow Q) (xgens X) -> Forall (genThrows Q) (xgens X) ->
  handler ev X ann e s = Throw e' -> e' = ENonStd \/ Q e'.
Proof.
  intros E V W ev X Q ann e s e' H1 H2 H. unfold handler in H. pose proof (xshrink_throws _ _ _ ev X Q s H1 H2) as Hx.
  destruct (xshrink ev X s) as [[[rep|x] s']| | |]; cbn in *; try discriminate; inversion H; subst; auto.
Qed.

Lemma evalTuple_valued_throw : forall E V W (ev : env E) (X : xproperty E V W) Q r e, Forall (genThrows Q) (xgens X) ->
  evalTuple (ord_call ev) (gens (plain X)) r = Throw e -> False.
Proof.
  intros E V W ev X Q r e H Ht. change (gens (plain X)) with (map (mapG (E := E) (fun t : xtree E V => emake (E := E) (xroot t))) (xgens X)) in Ht.
  rewrite evalTuple_mapG in Ht. pose proof (evalTuple_okG E _ (fun _ => True) Q (ord_call ev) (xgens X)) as Hk.
  assert (Hg : Forall (okG (fun _ => True) Q) (xgens X)).
  { rewrite Forall_forall in *. intros g Hg q. specialize (H g Hg q). destruct (g q) as [[[t|x] p]| | |]; auto. }
  specialize (Hk Hg r). destruct (evalTuple (ord_call ev) (xgens X) r) as [[[us|x] q]| | |]; try discriminate. contradiction.
Qed.

Lemma attempt_throw : forall E V W ev (X : xproperty E V W) Q s e, Forall (genThrows Q) (xgens X) -> attempt ev (plain X) s = Throw e -> False.
Proof.
  intros E V W ev X Q s e Hg H. unfold attempt in H. destruct (runHook (onStartup (plain X)) EStartup s) as [[x|] s1]; [discriminate|].
  destruct (evalTuple (ord_call ev) (gens (plain X)) (rnd s1)) as [[[ts|x] r1]| | |] eqn:Ee; cbn [bind] in H; try discriminate.
  - destruct (callFunc (plain X) (map eroot ts) (with_rnd r1 s1)) as [[b|x] s3].
    + destruct (runHook (onCleanup (plain X)) ECleanup s3) as [[x|] s4]; discriminate.
    + destruct x; discriminate.
  - eapply evalTuple_valued_throw; eauto.
Qed.

Lemma xretry_throws : forall E V W ev (X : xproperty E V W) Q fuel ann s e, Forall (shrinksThrow Q) (xgens X) -> Forall (genThrows Q) (xgens X) ->
  xretryRun fuel ev X ann s = Throw e -> e = ENonStd \/ Q e.
Proof.
  intros E V W ev X Q fuel ann s e H1 H2. revert ann s. induction fuel as [|fuel IH]; intros ann s H; [discriminate|]. rewrite xretry_unfold in H.
  destruct (attempt ev (plain X) s) as [[o s1]| | |] eqn:Ea; try discriminate; cbn [bind] in H.
  2:{ exfalso. eapply attempt_throw; eauto. }
  assert (Hfell : forall why s2, fell fuel ev X ann why s s1 s2 = Throw e -> e = ENonStd \/ Q e).
  { intros why s2 Hf. unfold fell in Hf. pose proof (xshrink_throws _ _ _ ev X Q (with_rnd (rnd s) s2) H1 H2) as Hx.
    destruct (xshrink ev X (with_rnd (rnd s) s2)) as [[[rep|x] s']| | |]; cbn [bind okS] in *; try discriminate; [|inversion Hf; subst; auto].
    destruct x; try discriminate; try (eapply handler_throws; eauto; fail); eauto. inversion Hf; auto. }
  destruct o as [b|x].
  - destruct (failures (cx s1)); [destruct b; [discriminate|]|]; eauto.
  - destruct x; try discriminate; try (eapply handler_throws; eauto; fail); eauto. inversion H; auto.
Qed.

Lemma xloop_throws : forall E V W ev (X : xproperty E V W) Q fuel n i ann s e, Forall (shrinksThrow Q) (xgens X) -> Forall (genThrows Q) (xgens X) ->
  xrunLoop fuel ev X n i ann s = Throw e -> e = ENonStd \/ Q e.
Proof.
  intros E V W ev X Q fuel n i ann s e H1 H2. revert i ann s. induction n as [|n IH]; intros i ann s H; cbn [xrunLoop] in H; [discriminate|].
  destruct (negb (maxDurationMs (base X) =? 0)%Z && (maxDurationMs (base X) <? elapsed ev i)%Z); [discriminate|].
  destruct (xretryRun fuel ev X [] s) as [[a s1|a rep s1]| | |] eqn:Er; cbn [bind] in H; try discriminate; eauto.
  inversion H; subst. eapply xretry_throws; eauto.
Qed.
