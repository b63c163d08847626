(** Proofs about stateful properties. *)
From Coq Require Import String List ZArith Bool Lia.
From Verif Require Import Base TreeModel RandomModel ListModel ContainerModel ContainerSpec ContainerProof PropContainer EffModel EffProof ContextModel ContextSpec RunnerModel RunnerSpec
  RunnerShrinkProof StatefulModel StatefulSpec.
Import ListNotations.
Local Open Scope list_scope.

Lemma ebind_ok : forall W X Y (m : eff W X) (f : X -> eff W Y) w ops y w', ebind m f w = (ops, inl y, w') ->
  exists o1 x w1 o2, m w = (o1, inl x, w1) /\ f x w1 = (o2, inl y, w') /\ ops = o1 ++ o2.
Proof.
  unfold ebind; intros * H; destruct (m w) as [[o1 [x|e]] w1] eqn:A; [|discriminate].
  destruct (f x w1) as [[o2 r2] w2] eqn:B; inversion H; subst. eauto 10.
Qed.
Lemma ebind_err : forall W X Y (m : eff W X) (f : X -> eff W Y) w ops e w', ebind m f w = (ops, inr e, w') ->
  m w = (ops, inr e, w') \/ exists o1 x w1 o2, m w = (o1, inl x, w1) /\ f x w1 = (o2, inr e, w') /\ ops = o1 ++ o2.
Proof.
  unfold ebind; intros * H; destruct (m w) as [[o1 [x|e']] w1] eqn:A.
  - destruct (f x w1) as [[o2 r2] w2] eqn:B; inversion H; subst. right; eauto 10.
  - inversion H; subst; auto.
Qed.
Lemma ebind_ok_intro : forall W X Y (m : eff W X) (f : X -> eff W Y) w o1 x w1 o2 r w', m w = (o1, inl x, w1) -> f x w1 = (o2, r, w') ->
  ebind m f w = (o1 ++ o2, r, w').
Proof. unfold ebind; intros * A B; rewrite A, B; auto. Qed.
Lemma ebind_err_intro : forall W X Y (m : eff W X) (f : X -> eff W Y) w o1 e w1, m w = (o1, inr e, w1) -> ebind m f w = (o1, inr e, w1).
Proof. unfold ebind; intros * A; rewrite A; auto. Qed.
Lemma eret_inv : forall W X (x y : X) (w w' : W) ops, eret x w = (ops, inl y, w') -> ops = [] /\ x = y /\ w = w'.
Proof. unfold eret; intros * H; inversion H; auto. Qed.

Lemma applyAll_ok : forall O M W (l : list (action O M W)) o m w ops o' m' w',
  applyAll l o m w = (ops, inl (o', m'), w') <-> ran l (o, m, w) ops (o', m', w').
Proof.
  induction l as [|a l IH]; intros *; cbn [applyAll].
  - split; intros H; [unfold eret in H; inversion H; subst; constructor|inversion H; subst; reflexivity].
  - split; intros H.
    + apply ebind_ok in H; destruct H as (o1 & [ob mo] & w1 & o2 & A & B & ->). apply IH in B. econstructor; eauto.
    + inversion H; subst. eapply ebind_ok_intro; [eassumption|]. apply IH; auto.
Qed.
Lemma applyAll_err : forall O M W (l : list (action O M W)) o m w ops e w',
  applyAll l o m w = (ops, inr e, w') <->
  exists l1 a l2 ops1 o1 m1 w1 ops2, l = l1 ++ a :: l2 /\ ran l1 (o, m, w) ops1 (o1, m1, w1) /\ a_func a o1 m1 w1 = (ops2, inr e, w') /\ ops = ops1 ++ ops2.
Proof.
  induction l as [|a l IH]; intros *; cbn [applyAll].
  - split; intros H; [inversion H|]. destruct H as (l1 & ? & ? & ? & ? & ? & ? & ? & H & _). destruct l1; discriminate.
  - split; intros H.
    + apply ebind_err in H; destruct H as [H|(o1 & [ob mo] & w1 & o2 & A & B & ->)].
      * exists [], a, l, [], o, m, w, ops; repeat split; auto. constructor.
      * apply IH in B; destruct B as (l1 & a' & l2 & ops1 & o1' & m1 & w1' & ops2 & -> & R & F & ->).
        exists (a :: l1), a', l2, (o1 ++ ops1), o1', m1, w1', ops2; repeat split; auto; [|apply app_assoc]. econstructor; eauto.
    + destruct H as ([|b l1] & a' & l2 & ops1 & o1 & m1 & w1 & ops2 & E & R & F & ->); cbn in E; inversion E; subst.
      * inversion R; subst. cbn. apply ebind_err_intro; auto.
      * inversion R; subst. rewrite <- app_assoc. eapply ebind_ok_intro; [eassumption|]. apply IH. repeat eexists; eauto.
Qed.

Lemma on_args_body : forall O A W (body : O -> list A -> eff W bool) o l w ops u w', on_args body [inl o; inr l] w = (ops, u, w') <->
  match u with URet b => body o l w = (ops, inl b, w') | UThrow e => body o l w = (ops, inr e, w') end.
Proof.
  intros *; unfold on_args; destruct (body o l w) as [[ops' [b|e]] w1]; split; intros H.
  - inversion H; subst; auto.
  - destruct u; inversion H; subst; auto.
  - inversion H; subst; auto.
  - destruct u; inversion H; subst; auto.
Qed.

Lemma body_ends : forall O M W (factory : O -> eff W (O * M)) post o l w ops u w',
  on_args (statefulBody factory post) [inl o; inr l] w = (ops, u, w') <-> ends factory post o l w ops u w'.
Proof.
  intros *; rewrite on_args_body; unfold statefulBody; split; intros H.
  - destruct u as [b|e].
    + apply ebind_ok in H; destruct H as (o1 & [ob mo] & w1 & o2 & A & B & ->).
      apply ebind_ok in B; destruct B as (o3 & [ob2 mo2] & w2 & o4 & B & C & ->).
      apply ebind_ok in C; destruct C as (o5 & [] & w3 & o6 & C & D & ->).
      apply eret_inv in D; destruct D as (-> & <- & ->). rewrite app_nil_r. apply applyAll_ok in B.
      eapply e_all; [eassumption|eassumption|]. destruct post; [auto|]. apply eret_inv in C; intuition.
    + apply ebind_err in H; destruct H as [H|(o1 & [ob mo] & w1 & o2 & A & B & ->)]; [constructor; auto|].
      apply ebind_err in B; destruct B as [B|(o3 & [ob2 mo2] & w2 & o4 & B & C & ->)].
      * apply applyAll_err in B; destruct B as (l1 & a & l2 & ops1 & o3 & m3 & w3 & ops2 & -> & R & F & ->).
        eapply e_action; eauto.
      * apply ebind_err in C; destruct C as [C|(o5 & [] & w3 & o6 & C & D & ->)]; [|discriminate].
        apply applyAll_ok in B. destruct post as [f|]; [|discriminate]. eapply e_check; eauto.
  - inversion H; subst.
    + apply ebind_err_intro; auto.
    + eapply ebind_ok_intro; [eassumption|]. apply ebind_err_intro. apply applyAll_err. repeat eexists; eauto.
    + eapply ebind_ok_intro; [eassumption|]. eapply ebind_ok_intro; [apply applyAll_ok; eassumption|]. apply ebind_err_intro; auto.
    + eapply ebind_ok_intro; [eassumption|]. eapply ebind_ok_intro; [apply applyAll_ok; eassumption|].
      rewrite <- (app_nil_r ops3). eapply ebind_ok_intro; [|reflexivity].
      destruct post as [f|]; [eassumption|]. match goal with H : ops3 = [] /\ _ |- _ => destruct H as [-> ->] end; reflexivity.
Qed.

(** * Watching *)

Lemma watch_apply : forall O M W (l : list (action O M W)) n o m w calls,
  exists k, (k <= length l)%nat /\
  applyAll (watch_all n l) o m (w, calls) = (let '(ops, r, w') := applyAll l o m w in (ops, r, (w', calls ++ seq n k))) /\
  (forall x, snd (fst (applyAll l o m w)) = inl x -> k = length l).
Proof.
  induction l as [|a l IH]; intros *; cbn [watch_all applyAll].
  - exists 0%nat; cbn; rewrite app_nil_r; auto.
  - unfold ebind. destruct (a_func a o m w) as [[o1 [[ob mo]|e]] w1] eqn:A.
    + destruct (IH (S n) ob mo w1 (calls ++ [n])) as (k & Hk & E & F). exists (S k); split; [cbn; lia|]. split.
      * unfold watch at 1, watched_eff at 1; cbn [a_func]. rewrite A. rewrite E.
        destruct (applyAll l ob mo w1) as [[o2 r2] w2]. rewrite <- app_assoc; reflexivity.
      * destruct (applyAll l ob mo w1) as [[o2 r2] w2]; cbn in F |- *. intros x Hx; rewrite (F x Hx); auto.
    + exists 1%nat; split; [cbn; lia|]. split.
      * unfold watch at 1, watched_eff at 1; cbn [a_func]. rewrite A; reflexivity.
      * cbn; discriminate.
Qed.

Lemma watch_body : forall O M W (factory : O -> eff W (O * M)) post o l w,
  let post' := option_map (fun f o m => watched_eff (length l) (f o m)) post in
  let factory' := fun o => unwatched_eff (factory o) in
  exists k, (k <= length l + (if has post then 1 else 0))%nat /\
  on_args (statefulBody factory' post') [inl o; inr (watch_all 0 l)] (w, []) =
    (let '(ops, u, w') := on_args (statefulBody factory post) [inl o; inr l] w in (ops, u, (w', seq 0 k))) /\
  (snd (fst (on_args (statefulBody factory post) [inl o; inr l] w)) = URet true -> k = (length l + (if has post then 1 else 0))%nat).
Proof.
  intros O M W factory post o l w; cbn zeta; unfold on_args, statefulBody, unwatched_eff, ebind.
  destruct (factory o w) as [[o1 [[ob mo]|e]] w1] eqn:A.
  2: { exists 0%nat; split; [lia|]; split; [reflexivity|cbn; discriminate]. }
  destruct (watch_apply O M W l 0 ob mo w1 []) as (k & Hk & E & F). rewrite E.
  destruct (applyAll l ob mo w1) as [[o2 [[ob2 mo2]|e]] w2] eqn:B; cbn [fst snd] in F.
  2: { exists k; split; [lia|]; split; [reflexivity|cbn; discriminate]. }
  specialize (F _ eq_refl); subst k. destruct post as [f|]; cbn [option_map has].
  - unfold watched_eff. destruct (f ob2 mo2 w2) as [[o3 [[]|e]] w3].
    + exists (length l + 1)%nat; split; [lia|]; split; [|auto]. cbn. rewrite seq_app; reflexivity.
    + exists (length l + 1)%nat; split; [lia|]; split; [|auto]. cbn. rewrite seq_app; reflexivity.
  - exists (length l); split; [lia|]; split; [reflexivity|cbn; lia].
Qed.

(** * Configuration *)

Lemma sbuild_parts : forall E O M W dr dd gs (s : sprop E O M W),
  let P := sbuild dr dd gs s in
  onStartup P = (match sp_onCleanup s with Some h => Some h | None => sp_onStartup s end) /\ onCleanup P = None /\
  seed P = (if (sp_seed s =? UINT64_MAX)%Z then gs else sp_seed s) /\
  numRuns P = (if (sp_numRuns s =? UINT32_MAX)%Z then dr else Z.to_nat (sp_numRuns s)) /\
  maxDurationMs P = (if (sp_maxDurationMs s =? UINT32_MAX)%Z then dd else sp_maxDurationMs s) /\
  func P = on_args (statefulBody (sp_modelFactory s) (sp_postCheck s)) /\
  gens P = [arg_gen inl (sp_initialGen s); arg_gen inr (pure_gen (arbi_vector (sp_actionGen s) defaultSizes))].
Proof.
  intros E O M W dr dd gs s; unfold sbuild; cbn zeta.
  destruct (sp_onStartup s), (sp_onCleanup s), (sp_seed s =? UINT64_MAX)%Z, (sp_numRuns s =? UINT32_MAX)%Z, (sp_maxDurationMs s =? UINT32_MAX)%Z; repeat split; reflexivity.
Qed.

(** * Class-based *)

Lemma prop_assert_ok : forall W b (w : W) ops x w', prop_assert b w = (ops, inl x, w') -> b = true /\ ops = [] /\ w' = w.
Proof. unfold prop_assert; destruct b; cbn; intros * H; inversion H; auto. Qed.

Lemma classLoop2_ok : forall O M W (l : list (caction O M W)) n o m w ops o' m' w',
  classLoop2 l o m w = (ops, inl (o', m'), w') <-> exists done, cran n l (o, m, w) ops done (o', m', w').
Proof.
  induction l as [|a l IH]; intros *; cbn [classLoop2].
  - split; intros H; [unfold eret in H; inversion H; subst; eexists; constructor|destruct H as [d H]; inversion H; subst; reflexivity].
  - split; intros H.
    + apply ebind_ok in H; destruct H as (o1 & [] & w1 & o2 & A & B & ->).
      * apply ebind_ok in B; destruct B as (o3 & [[ob mo] b] & w2 & o4 & B & C & ->).
        apply ebind_ok in C; destruct C as (o5 & [] & w3 & o6 & C & D & ->).
        apply prop_assert_ok in C; destruct C as (-> & -> & ->). apply (IH (S n)) in D; destruct D as [d D].
        exists (n :: d). eapply cran_run; eauto.
      * apply (IH (S n)) in B; destruct B as [d B]. exists d; eapply cran_skip; eauto.
    + destruct H as [d H]; inversion H; subst.
      * eapply ebind_ok_intro; [eassumption|]. cbv iota. apply (IH (S n)); eauto.
      * eapply ebind_ok_intro; [eassumption|]. cbv iota. eapply ebind_ok_intro; [eassumption|].
        change ops3 with ([] ++ ops3). eapply ebind_ok_intro; [reflexivity|]. apply (IH (S n)); eauto.
Qed.

Lemma cran_shift : forall O M W n (l : list (caction O M W)) st ops done st', cran n l st ops done st' -> forall k, exists done', cran k l st ops done' st'.
Proof.
  induction 1; intros k.
  - eexists; constructor.
  - destruct (IHcran (S k)) as [d ?]; exists d; eapply cran_skip; eauto.
  - destruct (IHcran (S k)) as [d ?]; exists (k :: d); eapply cran_run; eauto.
Qed.

Lemma classLoop2_err : forall O M W (l : list (caction O M W)) o m w ops e w',
  classLoop2 l o m w = (ops, inr e, w') <->
  exists l1 a l2 ops1 done o1 m1 w1 ops2, l = l1 ++ a :: l2 /\ cran 0 l1 (o, m, w) ops1 done (o1, m1, w1) /\ cstops a o1 m1 w1 ops2 e w' /\ ops = ops1 ++ ops2.
Proof.
  induction l as [|a l IH]; intros *; cbn [classLoop2].
  - split; intros H; [inversion H|]. destruct H as (l1 & ? & ? & ? & ? & ? & ? & ? & ? & H & _). destruct l1; discriminate.
  - split; intros H.
    + assert (here : forall ops e w', cstops a o m w ops e w' ->
        exists l1 b l2 ops1 done o1 m1 w1 ops2, a :: l = l1 ++ b :: l2 /\ cran 0 l1 (o, m, w) ops1 done (o1, m1, w1) /\ cstops b o1 m1 w1 ops2 e w' /\ ops = ops1 ++ ops2).
      { intros ops0 e0 w0 S; exists [], a, l, [], [], o, m, w, ops0; repeat split; auto; constructor. }
      apply ebind_err in H; destruct H as [H|(o1 & [] & w1 & o2 & A & B & ->)]; [apply here, cs_pre; auto|..].
      * apply ebind_err in B; destruct B as [B|(o3 & [[ob mo] b] & w2 & o4 & B & C & ->)]; [apply here; eapply cs_throw; eauto|].
        apply ebind_err in C; destruct C as [C|(o5 & [] & w3 & o6 & C & D & ->)].
        -- unfold prop_assert in C; destruct b; cbn in C; inversion C; subst. rewrite app_nil_r. apply here; eapply cs_false; eauto.
        -- apply prop_assert_ok in C; destruct C as (-> & -> & ->).
           apply IH in D; destruct D as (l1 & a' & l2 & ops1 & done & o1' & m1 & w1' & ops2 & -> & R & F & ->).
           destruct (cran_shift _ _ _ _ _ _ _ _ _ R 1%nat) as [d R'].
           exists (a :: l1), a', l2, (o1 ++ o3 ++ ops1), (0%nat :: d), o1', m1, w1', ops2; repeat split; auto; [eapply cran_run; eauto|].
           cbn. rewrite !app_assoc; auto.
      * apply IH in B; destruct B as (l1 & a' & l2 & ops1 & done & o1' & m1 & w1' & ops2 & -> & R & F & ->).
        destruct (cran_shift _ _ _ _ _ _ _ _ _ R 1%nat) as [d R'].
        exists (a :: l1), a', l2, (o1 ++ ops1), d, o1', m1, w1', ops2; repeat split; auto; [eapply cran_skip; eauto|]. apply app_assoc.
    + destruct H as ([|b l1] & a' & l2 & ops1 & done & o1 & m1 & w1 & ops2 & E & R & F & ->); cbn in E; inversion E; subst.
      * inversion R; subst. cbn [app]. inversion F; subst.
        -- apply ebind_err_intro; auto.
        -- eapply ebind_ok_intro; [eassumption|]. cbv iota. apply ebind_err_intro; auto.
        -- eapply ebind_ok_intro; [eassumption|]. cbv iota. match goal with H : run2 _ _ _ _ = (?q, _, _) |- _ => rewrite <- (app_nil_r q) end. eapply ebind_ok_intro; [eassumption|]. reflexivity.
      * assert (tail : forall k o m w ops1 done, cran k l1 (o, m, w) ops1 done (o1, m1, w1) -> classLoop2 (l1 ++ a' :: l2) o m w = (ops1 ++ ops2, inr e, w')).
        { intros k o0 m0 w0 ops0 done0 R0. destruct (cran_shift _ _ _ _ _ _ _ _ _ R0 0%nat) as [d R']. apply IH. repeat eexists; eauto. }
        inversion R; subst.
        -- rewrite <- app_assoc. eapply ebind_ok_intro; [eassumption|]. cbv iota. eapply tail; eauto.
        -- rewrite <- !app_assoc. eapply ebind_ok_intro; [eassumption|]. cbv iota. eapply ebind_ok_intro; [eassumption|].
           cbv beta iota. match goal with |- ebind _ _ _ = (?q, _, _) => change q with ([] ++ q) end. eapply ebind_ok_intro; [reflexivity|]. eapply tail; eauto.
Qed.

Lemma class_ends : forall O M W (factory : O -> eff W (O * M)) o l w ops u w',
  on_args (classBody2 factory) [inl o; inr l] w = (ops, u, w') <-> cends factory o l w ops u w'.
Proof.
  intros *; rewrite on_args_body; unfold classBody2; split; intros H.
  - destruct u as [b|e].
    + apply ebind_ok in H; destruct H as (o1 & [ob mo] & w1 & o2 & A & B & ->).
      apply ebind_ok in B; destruct B as (o3 & [ob2 mo2] & w2 & o4 & B & C & ->).
      apply eret_inv in C; destruct C as (-> & <- & ->). rewrite app_nil_r. apply (classLoop2_ok _ _ _ _ 0%nat) in B; destruct B as [d B].
      eapply ce_all; eauto.
    + apply ebind_err in H; destruct H as [H|(o1 & [ob mo] & w1 & o2 & A & B & ->)]; [constructor; auto|].
      apply ebind_err in B; destruct B as [B|(o3 & [ob2 mo2] & w2 & o4 & B & C & ->)]; [|discriminate].
      apply classLoop2_err in B; destruct B as (l1 & a & l2 & ops1 & done & o3 & m3 & w3 & ops2 & -> & R & F & ->).
      eapply ce_action; eauto.
  - inversion H; subst.
    + apply ebind_err_intro; auto.
    + eapply ebind_ok_intro; [eassumption|]. apply ebind_err_intro. apply classLoop2_err. repeat eexists; eauto.
    + eapply ebind_ok_intro; [eassumption|]. rewrite <- (app_nil_r ops2).
      eapply ebind_ok_intro; [apply (classLoop2_ok _ _ _ _ 0%nat); eauto|]. reflexivity.
Qed.


Lemma classLoop1_2 : forall O M W (l : list (caction O M W)) o w,
  classLoop2 (map without_model l) o tt w = (let '(ops, r, w') := classLoop1 l o w in (ops, match r with inl o' => inl (o', tt) | inr e => inr e end, w')).
Proof.
  induction l as [|a l IH]; intros *; cbn [classLoop2 classLoop1 map]; [reflexivity|].
  unfold precondition2; cbn [without_model c_pre2]. change (precondition1 (without_model a)) with (precondition1 a).
  unfold ebind. destruct (precondition1 a o w) as [[o1 [[]|e]] w1]; auto.
  - unfold run2; cbn [c_run2 without_model]. change (run1 (without_model a)) with (run1 a). unfold ebind.
    destruct (run1 a o w1) as [[o2 [[ob b]|e]] w2]; auto. unfold eret at 1. rewrite app_nil_r.
    unfold prop_assert; destruct b; unfold eret, ethrow; [|reflexivity]. cbv beta iota. rewrite IH.
    destruct (classLoop1 l ob w2) as [[o3 r3] w3]; cbn. reflexivity.
  - rewrite IH. destruct (classLoop1 l o w1) as [[o3 r3] w3]; cbn. reflexivity.
Qed.

Lemma class1_ends : forall O M W o (l : list (caction O M W)) w ops u w',
  on_args classBody1 [inl o; inr l] w = (ops, u, w') <-> cends (fun o => eret (o, tt)) o (map without_model l) w ops u w'.
Proof.
  intros *; rewrite <- class_ends. unfold on_args, classBody1, classBody2, ebind, eret. cbv beta iota.
  rewrite classLoop1_2. destruct (classLoop1 l o w) as [[o1 [ob|e]] w1]; cbn; reflexivity.
Qed.

(** * What is drawn *)

Lemma arg_gen_ok : forall E A V (inj : A -> V) (g : xgen E A) r t r', arg_gen inj g r = Ok (inl t, r') ->
  exists t0, g r = Ok (inl t0, r') /\ eroot t = inj (eroot t0).
Proof.
  intros * H; unfold arg_gen in H; apply gbind_ok in H; destruct H as (x & r1 & A1 & B). unfold gret in B; inversion B; subst.
  destruct x as [t0|e]; [|discriminate]. inversion H0; subst. exists t0; split; auto. rewrite emap_eq; reflexivity.
Qed.
Lemma arg_gen_quiet : forall E A V (inj : A -> V) (g : xgen E A), (forall r e r', g r <> Ok (inr e, r')) -> forall r e r', arg_gen inj g r <> Ok (inr e, r').
Proof.
  intros * Hq r e r' H; unfold arg_gen in H; apply gbind_ok in H; destruct H as (x & r1 & A1 & B). unfold gret in B; inversion B; subst.
  destruct x; [discriminate|]. eapply Hq; eauto.
Qed.
Lemma pure_gen_quiet : forall E A (g : gen E A) r e r', pure_gen g r <> Ok (inr e, r').
Proof. intros * H; unfold pure_gen in H; apply gbind_ok in H; destruct H as (x & r1 & A1 & B). discriminate. Qed.

Lemma draws_each : forall E A (g : G E A) r l r', draws g r l r' -> Forall (fun x => exists r0 r1, g r0 = Ok (x, r1)) l.
Proof. induction 1; constructor; eauto. Qed.

Definition shaped {O M W} (A : action O M W -> Prop) (args : list (O + list (action O M W))) : Prop :=
  exists o acts, args = [inl o; inr acts] /\ (length acts <= 200)%nat /\ Forall A acts.

Lemma drawn_shape : forall E O M W A ev dr dd gs (s : sprop E O M W), generates_only A (sp_actionGen s) -> inputs_in (shaped A) ev (sbuild dr dd gs s).
Proof.
  intros E O M W A ev dr dd gs s HA r ts r1 Ht.
  destruct (sbuild_parts E O M W dr dd gs s) as (_ & _ & _ & _ & _ & _ & G). rewrite G in Ht.
  apply evalTuple_ok in Ht; destruct Ht as [L N]. destruct ts as [|t1 [|t2 [|]]]; try discriminate.
  destruct (N 0%nat t1 eq_refl) as (f & q0 & q1 & F1 & F2). inversion F1; subst f. apply arg_gen_ok in F2; destruct F2 as (t0 & _ & E1).
  destruct (N 1%nat t2 eq_refl) as (f & p0 & p1 & F3 & F4). inversion F3; subst f. apply arg_gen_ok in F4; destruct F4 as (t3 & F5 & E2).
  exists (eroot t0), (eroot t3). cbn [map]. rewrite E1, E2; split; auto.
  unfold pure_gen in F5; apply gbind_ok in F5; destruct F5 as (t4 & r4 & F6 & F7). unfold gret in F7; inversion F7; subst. rewrite elift_root.
  destruct (C22_vector E _ (sp_actionGen s) 0 200 p0) as (n & r3 & D & Bn & HH); [lia|lia|vm_compute; discriminate|].
  apply HH in F6; destruct F6 as (vec & Dr & Sz & _ & R & _). rewrite R. split; [rewrite map_length; unfold size in Sz; lia|].
  apply draws_each in Dr. clear -Dr HA. induction Dr as [|x l (r0 & r1 & Hx) Dr IH]; constructor; auto. eapply HA; eauto.
Qed.

Section Go.
Context {E : engine} {O M W : Type} (A : action O M W -> Prop) (ev : env E) (dr : nat) (dd gs : Z) (s : sprop E O M W) (w : W).
Hypothesis HA : generates_only A (sp_actionGen s).
Hypothesis Hi : independent A (sp_modelFactory s) (sp_postCheck s).
Hypothesis Hh : no_hidden_failure A (sp_modelFactory s) (sp_postCheck s).
Hypothesis Hq : forall r e r', sp_initialGen s r <> Ok (inr e, r').
Hypothesis H1 : sp_onStartup s = None.
Hypothesis H2 : sp_onCleanup s = None.
Let body := on_args (statefulBody (sp_modelFactory s) (sp_postCheck s)).
Let P := sbuild dr dd gs s.
Definition sbeh (args : list (O + list (action O M W))) : list op * ures := fst (body args w).

Lemma sbuild_pure : pure_on (shaped A) P sbeh.
Proof.
  destruct (sbuild_parts E O M W dr dd gs s) as (P1 & P2 & P3 & P4 & P5 & P6 & P7). fold P in P1, P2, P6.
  split; [|rewrite P1, P2, H1, H2; auto]. intros args w0 (o & acts & -> & _ & Ha). rewrite P6. unfold sbeh. fold body.
  destruct (body [inl o; inr acts] w) as [[ops u] w1] eqn:B. apply body_ends in B. destruct (Hi _ _ _ _ _ _ Ha B) as [_ Hx].
  specialize (Hx w0). apply body_ends in Hx. exact Hx.
Qed.
Lemma sbuild_quiet : quiet (gens P).
Proof.
  destruct (sbuild_parts E O M W dr dd gs s) as (P1 & P2 & P3 & P4 & P5 & P6 & P7). fold P in P7.
  rewrite P7. repeat constructor; apply arg_gen_quiet; auto. apply pure_gen_quiet.
Qed.
Lemma sbuild_no_leak : no_leak_on (shaped A) sbeh.
Proof.
  intros args (o & acts & -> & _ & Ha) F. unfold sbeh in *.
  destruct (body [inl o; inr acts] w) as [[ops u] w1] eqn:B. apply body_ends in B. cbn [fst snd] in *.
  split; intros ->; apply F; eapply Hh; eauto.
Qed.
Lemma sbuild_drawn : forall r l r', drawn ev P r l r' -> Forall (shaped A) l.
Proof. induction 1; constructor; auto. eapply (drawn_shape E O M W A ev dr dd gs s HA); eauto. Qed.
Lemma sbuild_runs : forall l, Forall (shaped A) l ->
  exists runs, l = map run_args runs /\ Forall (genuine A (sp_modelFactory s) (sp_postCheck s) w) runs /\ Forall (fun x => snd x = sbeh (run_args x)) runs.
Proof.
  induction 1 as [|a l (o & acts & -> & La & Fa) Sh IH]; [exists []; auto|]. destruct IH as (runs & -> & G & B).
  exists ((o, acts, sbeh [inl o; inr acts]) :: runs). split; [reflexivity|]. split; constructor; auto.
  split; [exact La|]. split; [exact Fa|]. cbn [fst snd]. unfold sbeh. destruct (body [inl o; inr acts] w) as [[ops u] w1] eqn:Eb. cbn [fst snd].
  apply body_ends in Eb. destruct (Hi _ _ _ _ _ _ Fa Eb) as [-> _]. exact Eb.
Qed.
Lemma sbuild_count : forall runs, Forall (fun x => snd x = sbeh (run_args x)) runs ->
  length (filter (is_pass sbeh) (map run_args runs)) = length (filter run_passed runs).
Proof.
  induction 1 as [|x runs Hx B IH]; [reflexivity|]. cbn [map filter].
  unfold run_passed at 1, run_judge at 1, is_pass at 1. rewrite <- Hx. destruct (judge (snd x)); cbn [length]; auto.
Qed.
Lemma sbuild_accept : forall runs, Forall (fun x => snd x = sbeh (run_args x)) runs -> Forall (acceptable sbeh) (map run_args runs) ->
  Forall (genuine A (sp_modelFactory s) (sp_postCheck s) w) runs ->
  Forall (fun x => genuine A (sp_modelFactory s) (sp_postCheck s) w x /\ (run_judge x = JPass \/ run_judge x = JDiscard)) runs.
Proof.
  intros runs B Ac G. apply Forall_forall. intros x Hx. rewrite Forall_forall in G, B, Ac. split; [auto|].
  assert (Ax := Ac (run_args x) (in_map _ _ _ Hx)). unfold acceptable in Ax. rewrite <- (B x Hx) in Ax. exact Ax.
Qed.
End Go.
