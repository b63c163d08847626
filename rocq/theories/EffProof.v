(** Proofs about shrinkables whose shrinks use the engine. *)
From Coq Require Import List ZArith Lia Bool.
From Verif Require Import Base TreeModel TreeSpec TreeProof RandomModel IntegralModel IntegralSpec IntegralProof ListModel
  ListSpec ListMainProof ContainerModel ContainerSpec ContainerProof EffModel EffSpec.
Import ListNotations.

Lemma ereach_trans : forall E A (a b c : etree E A), ereach a b -> ereach b c -> ereach a c.
Proof. intros E A a b c H. revert c. induction H; intros; auto. eapply ereach_step; eauto. Qed.

Lemma emake_reach : forall E A (a : A) (s : etree E A), ereach (emake a) s -> s = emake a.
Proof. intros E A a s H. inversion H; subst; auto. simpl in H0. unfold gret in H0. inversion H0; subst. inversion H1. Qed.

(* flatMap *)
Lemma eflatMap_eq : forall E A B (f : A -> egen E B) t,
  eflatMap f t = gbind (f (eroot t)) (fun b => gret (ENode (eroot b) (gbind (eshrinks t) (eflatMap_s f)))).
Proof. intros. destruct t; reflexivity. Qed.

Lemma eflatMap_s_elem : forall E A B (f : A -> egen E B) st c, selem st c ->
  forall su r r', eflatMap_s f su r = Ok (st, r') ->
  exists cu r1 r2, selem su cu /\ eflatMap f cu r1 = Ok (c, r2).
Proof.
  intros E A B f st c H. induction H; intros su r0 r0' K0.
  - destruct su as [|hu tlu]; simpl in K0; [inversion K0|]. apply gbind_ok in K0. destruct K0 as [h' [r1 [H1 H2]]].
    inversion H2; subst. exists hu, r0, r0'. split; [constructor|auto].
  - destruct su as [|hu tlu]; simpl in K0; [inversion K0|]. apply gbind_ok in K0. destruct K0 as [h' [r1 [H1' H2]]].
    inversion H2; subst. apply gbind_ok in H. destruct H as [su' [r3 [H3 H4]]].
    apply IHselem in H4. destruct H4 as [cu [r5 [r6 [H5 H6]]]]. exists cu, r5, r6. split; auto. eapply selem_later; eauto.
Qed.

Lemma eflatMap_reach : forall E A B (f : A -> egen E B) b s, ereach b s ->
  forall t r r', eflatMap f t r = Ok (b, r') ->
  exists u r1 r2, ereach t u /\ eflatMap f u r1 = Ok (s, r2).
Proof.
  intros E A B f b s H. induction H; intros t0 r0 r0' H2.
  - exists t0, r0, r0'. split; auto. constructor.
  - rewrite eflatMap_eq in H2. apply gbind_ok in H2. destruct H2 as [b [r1 [H2 H3]]]. inversion H3; subst. simpl in H.
    apply gbind_ok in H. destruct H as [su [r2 [H4 H5]]].
    destruct (eflatMap_s_elem _ _ _ _ _ _ H0 _ _ _ H5) as [cu [r3 [r4 [H6 H7]]]].
    destruct (IHereach _ _ _ H7) as [u [r5 [r6 [H8 H9]]]]. exists u, r5, r6. split; auto. eapply ereach_step; eauto.
Qed.

Lemma eflatMap_root : forall E A B (f : A -> egen E B) u r s r', eflatMap f u r = Ok (s, r') ->
  exists c r1, f (eroot u) r = Ok (c, r1) /\ eroot s = eroot c.
Proof.
  intros. rewrite eflatMap_eq in H. apply gbind_ok in H. destruct H as [b [r1 [H2 H3]]]. inversion H3; subst.
  exists b, r'. auto.
Qed.

(* andThen *)
Lemma eandThen_eq : forall E A (thn : etree E A -> G E (estream E A)) t,
  eandThen thn t = gbind (eshrinks t) (fun s => match s with
                          | ENil => gret (ENode (eroot t) (thn t))
                          | ECons _ _ => gret (ENode (eroot t) (gbind (eshrinks t) (eandThen_s thn)))
                          end).
Proof. intros. destruct t; reflexivity. Qed.

Lemma eandThen_s_elem : forall E A (thn : etree E A -> G E (estream E A)) st c, selem st c ->
  forall su r r', eandThen_s thn su r = Ok (st, r') ->
  exists cu r1 r2, selem su cu /\ eandThen thn cu r1 = Ok (c, r2).
Proof.
  intros E A f st c H. induction H; intros su r0 r0' K0.
  - destruct su as [|hu tlu]; simpl in K0; [inversion K0|]. apply gbind_ok in K0. destruct K0 as [h' [r1 [H1 H2]]].
    inversion H2; subst. exists hu, r0, r0'. split; [constructor|auto].
  - destruct su as [|hu tlu]; simpl in K0; [inversion K0|]. apply gbind_ok in K0. destruct K0 as [h' [r1 [H1' H2]]].
    inversion H2; subst. apply gbind_ok in H. destruct H as [su' [r3 [H3 H4]]].
    apply IHselem in H4. destruct H4 as [cu [r5 [r6 [H5 H6]]]]. exists cu, r5, r6. split; auto. eapply selem_later; eauto.
Qed.

Lemma eandThen_root : forall E A (thn : etree E A -> G E (estream E A)) t r s r', eandThen thn t r = Ok (s, r') ->
  eroot s = eroot t.
Proof.
  intros. rewrite eandThen_eq in H. apply gbind_ok in H. destruct H as [st [r1 [H1 H2]]].
  destruct st; inversion H2; subst; reflexivity.
Qed.

Lemma eandThen_reach : forall E A (thn : etree E A -> G E (estream E A)) b s, ereach b s ->
  forall t r r', eandThen thn t r = Ok (b, r') ->
  (exists u r1 r2, ereach t u /\ eandThen thn u r1 = Ok (s, r2)) \/
  (exists u r1 r2 r3 r4 st c, ereach t u /\ eshrinks u r1 = Ok (ENil, r2) /\ thn u r3 = Ok (st, r4) /\ selem st c /\ ereach c s).
Proof.
  intros E A thn b s H. induction H; intros t0 r0 r0' H2.
  - left. exists t0, r0, r0'. split; auto. constructor.
  - rewrite eandThen_eq in H2. apply gbind_ok in H2. destruct H2 as [su [r1 [H2 H3]]].
    destruct su as [|h tl]; inversion H3; subst; simpl in H.
    + right. exists t0, r0, r0', r, r', st, c. split; [constructor|]. auto.
    + apply gbind_ok in H. destruct H as [su [r2 [H4 H5]]].
      destruct (eandThen_s_elem _ _ _ _ _ H0 _ _ _ H5) as [cu [r3 [r4 [H6 H7]]]].
      destruct (IHereach _ _ _ H7) as [[u [r5 [r6 [H8 H9]]]]|[u [r5 [r6 [r7 [r8 [st' [c' [H8 H9]]]]]]]]].
      * left. exists u, r5, r6. split; auto. eapply ereach_step; [exact H4|exact H6|auto].
      * right. exists u, r5, r6, r7, r8, st', c'. split; auto. eapply ereach_step; [exact H4|exact H6|auto].
Qed.

(* map *)
Lemma emap_eq : forall E A B (f : A -> B) (t : etree E A),
  emap f t = ENode (f (eroot t)) (gbind (eshrinks t) (fun s => gret (emap_s f s))).
Proof. intros. destruct t; reflexivity. Qed.

Lemma emap_s_elem : forall E A B (f : A -> B) (st : estream E B) c, selem st c ->
  forall su, st = emap_s f su -> exists cu, selem su cu /\ c = emap f cu.
Proof.
  intros E A B f st c H. induction H; intros su E0.
  - destruct su as [|hu tlu]; inversion E0; subst. exists hu. split; auto. constructor.
  - destruct su as [|hu tlu]; inversion E0; subst. apply gbind_ok in H. destruct H as [su' [r1 [H1 H2]]].
    inversion H2; subst. destruct (IHselem _ eq_refl) as [cu [H3 H4]]. exists cu. split; auto. eapply selem_later; eauto.
Qed.

Lemma emap_reach : forall E A B (f : A -> B) (b s : etree E B), ereach b s ->
  forall t, b = emap f t -> exists u, ereach t u /\ s = emap f u.
Proof.
  intros E A B f b s H. induction H; intros t0 E0; subst.
  - exists t0. split; auto. constructor.
  - rewrite emap_eq in H. simpl in H. apply gbind_ok in H. destruct H as [su [r1 [H2 H3]]]. inversion H3; subst.
    destruct (emap_s_elem _ _ _ _ _ _ H0 _ eq_refl) as [cu [H4 ->]].
    destruct (IHereach _ eq_refl) as [u [H5 ->]]. exists u. split; auto. eapply ereach_step; eauto.
Qed.

(* pure shrinkables *)
Fixpoint elist {E A} (ts : list (tree A)) : estream E A :=
  match ts with [] => ENil | s :: r => ECons (elift s) (gret (elist r)) end.

Lemma elift_eq : forall E A (t : tree A), elift (E := E) t = ENode (root t) (gret (elist (shrinks t))).
Proof.
  intros E A [a ts]. simpl. f_equal. f_equal. induction ts as [|t ts IH]; auto. simpl. rewrite IH. auto.
Qed.

Lemma elist_elem : forall E A ts (c : etree E A), selem (elist ts) c -> exists s, In s ts /\ c = elift s.
Proof.
  intros E A ts c. remember (elist ts) as st. intros H. revert ts Heqst. induction H; intros [|u us] E0; inversion E0; subst.
  - exists u. simpl. auto.
  - inversion H; subst. destruct (IHselem _ eq_refl) as [s [H1 H2]]. exists s. simpl. auto.
Qed.

Lemma elist_elem_back : forall E A (r : rst E) ts (s : tree A), In s ts -> selem (elist (E := E) ts) (elift s).
Proof.
  intros E A r ts s H. induction ts as [|u us IH]; [destruct H|]. destruct H as [->|H]; [constructor|].
  simpl. eapply (selem_later _ _ r); [reflexivity|auto].
Qed.

Lemma elift_reach : forall E A (b s : etree E A), ereach b s -> forall t, b = elift t -> exists u, reach t u /\ s = elift u.
Proof.
  intros E A b s H. induction H; intros t0 E0; subst.
  - exists t0. split; auto. constructor.
  - rewrite elift_eq in H. inversion H; subst. apply elist_elem in H0. destruct H0 as [u [H2 ->]].
    destruct (IHereach _ eq_refl) as [v [H3 ->]]. exists v. split; auto. eapply reach_step; eauto.
Qed.

Lemma elift_root : forall E A (t : tree A), eroot (elift (E := E) t) = root t.
Proof. intros. rewrite elift_eq. auto. Qed.

Lemma liftGen_ok : forall E A (g : gen E A) r t r', liftGen g r = Ok (t, r') -> exists u, g r = Ok (u, r') /\ t = elift u.
Proof. intros. apply gbind_ok in H. destruct H as [u [r1 [H1 H2]]]. inversion H2; subst. eauto. Qed.

(* dependent generation: soundness *)
Lemma interFunctor_ok : forall E T U (g2 : T -> egen E U) t r c r', interFunctor g2 t r = Ok (c, r') ->
  exists u, g2 t r = Ok (u, r') /\ c = emake (t, u).
Proof. intros. apply gbind_ok in H. destruct H as [u [r1 [H1 H2]]]. inversion H2; subst. eauto. Qed.

Lemma secondShrinks_elem : forall E T U (p : etree E (T * etree E U)) r st r' c s,
  secondShrinks p r = Ok (st, r') -> selem st c -> ereach c s ->
  exists v, ereach (snd (eroot p)) v /\ eroot s = (fst (eroot p), emake (eroot v)).
Proof.
  intros E T U p r st r' c s H He Hr. unfold secondShrinks in H. destruct (eroot p) as [t u]. simpl.
  apply gbind_ok in H. destruct H as [n [r1 [H1 H2]]].
  assert (Hn : ereach n s) by (eapply ereach_step; eauto).
  destruct (eflatMap_reach _ _ _ _ _ _ Hn _ _ _ H1) as [v [r2 [r3 [H3 H4]]]].
  apply eflatMap_root in H4. destruct H4 as [d [r4 [H5 H6]]]. inversion H5; subst. exists v. auto.
Qed.

Lemma dependent_sound : forall E T U W (g1 : egen E T) (g2 : T -> egen E U) (fin : T * etree E U -> etree E W) r b r' s,
  dependent g1 g2 fin r = Ok (b, r') -> ereach b s ->
  exists tT r1 u r2 tU r3 v, g1 r = Ok (tT, r1) /\ ereach tT u /\ g2 (eroot u) r2 = Ok (tU, r3) /\ ereach tU v /\
    (eroot s = eroot (fin (eroot u, tU)) /\ v = tU \/
     eroot s = eroot (fin (eroot u, emake (eroot v))) /\ exists r4 r5, eshrinks u r4 = Ok (ENil, r5)).
Proof.
  intros E T U W g1 g2 fin r b r' s H Hs. unfold dependent in H.
  apply gbind_ok in H. destruct H as [tT [r1 [H1 H]]].
  apply gbind_ok in H. destruct H as [I [r2 [H2 H]]].
  apply gbind_ok in H. destruct H as [J [r3 [H3 H4]]].
  destruct (eflatMap_reach _ _ _ _ _ _ Hs _ _ _ H4) as [j [r5 [r6 [Hj Hr]]]].
  apply eflatMap_root in Hr. destruct Hr as [c [r7 [Hc Er]]]. inversion Hc; subst.
  destruct (eandThen_reach _ _ _ _ _ Hj _ _ _ H3) as [[i [a1 [a2 [Hi Ha]]]]|[i [a1 [a2 [a3 [a4 [st [c [Hi [Hl [Ht [Hsel Hre]]]]]]]]]]]].
  - apply eandThen_root in Ha. destruct (eflatMap_reach _ _ _ _ _ _ Hi _ _ _ H2) as [u [b1 [b2 [Hu Hu']]]].
    apply eflatMap_root in Hu'. destruct Hu' as [c [b3 [Hc' Ec]]]. apply interFunctor_ok in Hc'. destruct Hc' as [tU [Hg ->]].
    exists tT, r1, u, b1, tU, b3, tU. repeat split; auto; [constructor|]. left. split; auto. rewrite Er, Ha, Ec. auto.
  - destruct (eflatMap_reach _ _ _ _ _ _ Hi _ _ _ H2) as [u [b1 [b2 [Hu Hu']]]].
    assert (Hleaf : exists r4 r5, eshrinks u r4 = Ok (ENil, r5)).
    { rewrite eflatMap_eq in Hu'. apply gbind_ok in Hu'. destruct Hu' as [c1 [q1 [_ Hu']]]. injection Hu' as Hi' _.
      rewrite <- Hi' in Hl. cbn [eshrinks] in Hl. apply gbind_ok in Hl. destruct Hl as [st1 [q2 [Q1 Q2]]].
      destruct st1 as [|h1 tl1]; [eauto|]. cbn [eflatMap_s] in Q2. apply gbind_ok in Q2. destruct Q2 as [? [? [_ Q2]]]. discriminate. }
    apply eflatMap_root in Hu'. destruct Hu' as [c' [b3 [Hc' Ec]]]. apply interFunctor_ok in Hc'. destruct Hc' as [tU [Hg ->]].
    destruct (secondShrinks_elem _ _ _ _ _ _ _ _ _ Ht Hsel Hre) as [v [Hv Ev]]. rewrite Ec in Hv, Ev. simpl in Hv, Ev.
    exists tT, r1, u, b1, tU, b3, v. repeat split; auto. right. split; auto. rewrite Er, Ev. auto.
Qed.

(* dependent generation: completeness *)
Lemma etree_ind3 : forall E A (P : etree E A -> Prop) (Q : estream E A -> Prop),
  (forall a shr, (forall r s r', shr r = Ok (s, r') -> Q s) -> P (ENode a shr)) ->
  Q ENil ->
  (forall h tl, P h -> (forall r s r', tl r = Ok (s, r') -> Q s) -> Q (ECons h tl)) ->
  (forall t, P t) /\ (forall s, Q s).
Proof.
  intros E A P Q HN HNil HC.
  assert (H : forall t, P t).
  { refine (fix F (t : etree E A) : P t := _ with S (s : estream E A) : Q s := _ for F).
    - destruct t as [a shr]. apply HN. intros r s r' Es.
      refine (match shr r as x return x = Ok (s, r') -> Q s with
              | Ok p => match p as p return Ok p = Ok (s, r') -> Q s with (s1, _) => fun e => _ end
              | _ => fun e => _ end Es); try discriminate.
      assert (e' : s1 = s) by congruence. rewrite <- e'. apply (S s1).
    - destruct s as [|h tl]; [exact HNil|]. apply HC; [apply F|]. intros r s r' Es.
      refine (match tl r as x return x = Ok (s, r') -> Q s with
              | Ok p => match p as p return Ok p = Ok (s, r') -> Q s with (s1, _) => fun e => _ end
              | _ => fun e => _ end Es); try discriminate.
      assert (e' : s1 = s) by congruence. rewrite <- e'. apply (S s1). }
  split; [exact H|].
  refine (fix S (s : estream E A) : Q s := _). destruct s as [|h tl]; [exact HNil|]. apply HC; [apply H|]. intros r s r' Es.
  refine (match tl r as x return x = Ok (s, r') -> Q s with
              | Ok p => match p as p return Ok p = Ok (s, r') -> Q s with (s1, _) => fun e => _ end
              | _ => fun e => _ end Es); try discriminate.
  assert (e' : s1 = s) by congruence. rewrite <- e'. apply (S s1).
Qed.

Lemma etotal_force : forall E A (t : etree E A), etotal t -> forall r, exists s r', eshrinks t r = Ok (s, r') /\ stotal s.
Proof. intros E A [a shr] H r. simpl in *. specialize (H r). destruct (shr r) as [[s r']| | |]; try contradiction. eauto. Qed.

Lemma etotal_intro : forall E A a (shr : G E (estream E A)), (forall r, exists s r', shr r = Ok (s, r') /\ stotal s) -> etotal (ENode a shr).
Proof. intros E A a shr H. simpl. intros r. destruct (H r) as [s [r' [-> H']]]. auto. Qed.

Lemma stotal_tail : forall E A h (tl : G E (estream E A)), stotal (ECons h tl) -> forall r, exists s r', tl r = Ok (s, r') /\ stotal s.
Proof. intros E A h tl [_ H] r. specialize (H r). destruct (tl r) as [[s r']| | |]; try contradiction. eauto. Qed.

Lemma stotal_intro : forall E A h (tl : G E (estream E A)), etotal h -> (forall r, exists s r', tl r = Ok (s, r') /\ stotal s) ->
  stotal (ECons h tl).
Proof. intros E A h tl Hh H. simpl. split; auto. intros r. destruct (H r) as [s [r' [-> H']]]. auto. Qed.

Lemma stotal_elem : forall E A (s : estream E A) c, selem s c -> stotal s -> etotal c.
Proof.
  intros E A s c H. induction H; intros Ht; [apply Ht|]. apply IHselem.
  destruct (stotal_tail _ _ _ _ Ht r) as [s1 [r1 [E1 H1]]]. rewrite H in E1. inversion E1; subst. auto.
Qed.

Lemma etotal_reach : forall E A (t s : etree E A), ereach t s -> etotal t -> etotal s.
Proof.
  intros E A t s H. induction H; intros Ht; auto. apply IHereach. eapply stotal_elem; eauto.
  destruct (etotal_force _ _ _ Ht r) as [s1 [r1 [E1 H2]]]. rewrite H in E1. inversion E1; subst. auto.
Qed.

Lemma elift_total : forall E A (t : tree A), etotal (elift (E := E) t).
Proof.
  intros E A. induction t as [a ts IH] using tree_ind'. rewrite elift_eq. apply etotal_intro. intros r.
  exists (elist ts), r. split; auto. simpl in *. induction IH; simpl; auto.
Qed.

Definition fn_total {E A B} (f : A -> egen E B) : Prop := forall a r, exists c r', f a r = Ok (c, r').

Lemma eflatMap_total : forall E A B (f : A -> egen E B), fn_total f ->
  (forall t, etotal t -> forall r, exists b r', eflatMap f t r = Ok (b, r') /\ etotal b) /\
  (forall s, stotal s -> forall r, exists b r', eflatMap_s f s r = Ok (b, r') /\ stotal b).
Proof.
  intros E A B f Hf. apply etree_ind3.
  - intros a shr IH Ht r. rewrite eflatMap_eq. simpl. destruct (Hf a r) as [c [r1 Ec]].
    exists (ENode (eroot c) (gbind shr (eflatMap_s f))), r1. split; [rewrite (gbind_eq _ _ _ _ _ _ _ _ Ec); auto|].
    apply etotal_intro. intros r2. destruct (etotal_force _ _ _ Ht r2) as [s [r3 [Es Hs]]]. simpl in Es.
    destruct (IH _ _ _ Es Hs r3) as [b [r4 [Eb Hb]]]. exists b, r4. split; auto. rewrite (gbind_eq _ _ _ _ _ _ _ _ Es). auto.
  - intros _ r. exists ENil, r. split; auto. exact I.
  - intros h tl IHh IHt Ht r. destruct (IHh (proj1 Ht) r) as [h' [r1 [Eh Hh]]].
    exists (ECons h' (gbind tl (eflatMap_s f))), r1. split; [cbn [eflatMap_s]; rewrite (gbind_eq _ _ _ _ _ _ _ _ Eh); auto|].
    apply stotal_intro; auto. intros r2. destruct (stotal_tail _ _ _ _ Ht r2) as [s [r3 [Es Hs]]].
    destruct (IHt _ _ _ Es Hs r3) as [b [r4 [Eb Hb]]]. exists b, r4. split; auto. rewrite (gbind_eq _ _ _ _ _ _ _ _ Es). auto.
Qed.

Lemma eflatMap_s_elem_back : forall E A B (f : A -> egen E B), fn_total f -> forall su cu, selem su cu -> stotal su ->
  forall st r r', eflatMap_s f su r = Ok (st, r') ->
  exists c r1 r2, selem st c /\ eflatMap f cu r1 = Ok (c, r2).
Proof.
  intros E A B f Hf su cu H. induction H; intros Ht st r0 r0' K.
  - simpl in K. apply gbind_ok in K. destruct K as [h' [r1 [K1 K2]]]. inversion K2; subst.
    exists h', r0, r0'. split; [constructor|auto].
  - simpl in K. apply gbind_ok in K. destruct K as [h' [r1 [K1 K2]]]. inversion K2; subst.
    destruct (stotal_tail _ _ _ _ Ht r) as [s1 [r1' [E1 H1]]]. rewrite H in E1. inversion E1; subst s1 r1'.
    destruct (proj2 (eflatMap_total _ _ _ f Hf) s H1 r') as [b [r4 [Eb Hb]]].
    destruct (IHselem H1 _ _ _ Eb) as [c' [r5 [r6 [H5 H6]]]]. exists c', r5, r6. split; auto.
    eapply (selem_later _ _ r); [|exact H5]. rewrite (gbind_eq _ _ _ _ _ _ _ _ H). exact Eb.
Qed.

Lemma eflatMap_reach_back : forall E A B (f : A -> egen E B), fn_total f -> forall t u, ereach t u -> etotal t ->
  forall b r r', eflatMap f t r = Ok (b, r') ->
  exists s r1 r2, ereach b s /\ eflatMap f u r1 = Ok (s, r2).
Proof.
  intros E A B f Hf t u H. induction H; intros Ht b r0 r0' K.
  - exists b, r0, r0'. split; auto. constructor.
  - pose proof K as K0. rewrite eflatMap_eq in K. apply gbind_ok in K. destruct K as [c0 [r1 [K1 K2]]]. inversion K2; subst.
    destruct (etotal_force _ _ _ Ht r) as [s1 [r1 [E1 H2]]]. rewrite H in E1. inversion E1; subst s1 r1.
    destruct (proj2 (eflatMap_total _ _ _ f Hf) st H2 r') as [st' [r4 [Eb Hb]]].
    destruct (eflatMap_s_elem_back _ _ _ f Hf _ _ H0 H2 _ _ _ Eb) as [c' [r5 [r6 [H5 H6]]]].
    destruct (IHereach (stotal_elem _ _ _ _ H0 H2) _ _ _ H6) as [s' [r7 [r8 [H7 H8]]]].
    exists s', r7, r8. split; auto. eapply (ereach_step _ r st'); [|exact H5|exact H7].
    simpl. rewrite (gbind_eq _ _ _ _ _ _ _ _ H). exact Eb.
Qed.

Lemma eandThen_total : forall E A (thn : etree E A -> G E (estream E A)),
  (forall t, etotal t -> (forall u, ereach t u -> forall r, exists st r', thn u r = Ok (st, r') /\ stotal st) ->
     forall r, exists b r', eandThen thn t r = Ok (b, r') /\ etotal b) /\
  (forall s, stotal s -> (forall c, selem s c -> forall u, ereach c u -> forall r, exists st r', thn u r = Ok (st, r') /\ stotal st) ->
     forall r, exists b r', eandThen_s thn s r = Ok (b, r') /\ stotal b).
Proof.
  intros E A thn. apply etree_ind3.
  - intros a shr IH Ht Hthn r. rewrite eandThen_eq. cbn [eshrinks eroot].
    destruct (etotal_force _ _ _ Ht r) as [s [r1 [Es Hs]]]. simpl in Es. rewrite (gbind_eq _ _ _ _ _ _ _ _ Es).
    destruct s as [|h tl].
    + exists (ENode a (thn (ENode a shr))), r1. split; auto. apply etotal_intro. intros r2.
      apply Hthn. constructor.
    + exists (ENode a (gbind shr (eandThen_s thn))), r1. split; auto. apply etotal_intro. intros r2.
      destruct (etotal_force _ _ _ Ht r2) as [s [r3 [Es' Hs']]]. simpl in Es'.
      destruct (IH _ _ _ Es' Hs') with (r := r3) as [b [r4 [Eb Hb]]].
      { intros c Hc u Hu. apply Hthn. eapply ereach_step; [exact Es'|exact Hc|exact Hu]. }
      exists b, r4. split; auto. rewrite (gbind_eq _ _ _ _ _ _ _ _ Es'). auto.
  - intros _ _ r. exists ENil, r. split; auto. exact I.
  - intros h tl IHh IHt Ht Hthn r.
    destruct (IHh (proj1 Ht)) with (r := r) as [h' [r1 [Eh Hh]]].
    { intros u Hu. apply (Hthn h); auto. constructor. }
    exists (ECons h' (gbind tl (eandThen_s thn))), r1. split; [cbn [eandThen_s]; rewrite (gbind_eq _ _ _ _ _ _ _ _ Eh); auto|].
    apply stotal_intro; auto. intros r2. destruct (stotal_tail _ _ _ _ Ht r2) as [s [r3 [Es Hs]]].
    destruct (IHt _ _ _ Es Hs) with (r := r3) as [b [r4 [Eb Hb]]].
    { intros c Hc u Hu. apply (Hthn c); auto. eapply selem_later; eauto. }
    exists b, r4. split; auto. rewrite (gbind_eq _ _ _ _ _ _ _ _ Es). auto.
Qed.

Definition thn_total {E A} (thn : etree E A -> G E (estream E A)) (t : etree E A) : Prop :=
  forall u, ereach t u -> forall r, exists st r', thn u r = Ok (st, r') /\ stotal st.

Lemma eandThen_s_elem_back : forall E A (thn : etree E A -> G E (estream E A)) su cu, selem su cu -> stotal su ->
  (forall c, selem su c -> thn_total thn c) ->
  forall st r r', eandThen_s thn su r = Ok (st, r') ->
  exists c r1 r2, selem st c /\ eandThen thn cu r1 = Ok (c, r2).
Proof.
  intros E A f su cu H. induction H; intros Ht Hf st r0 r0' K.
  - simpl in K. apply gbind_ok in K. destruct K as [h' [r1 [K1 K2]]]. inversion K2; subst.
    exists h', r0, r0'. split; [constructor|auto].
  - simpl in K. apply gbind_ok in K. destruct K as [h' [r1 [K1 K2]]]. inversion K2; subst.
    destruct (stotal_tail _ _ _ _ Ht r) as [s1 [r1' [E1 H1]]]. rewrite H in E1. inversion E1; subst s1 r1'.
    assert (Hf' : forall c, selem s c -> thn_total f c) by (intros; apply Hf; eapply selem_later; eauto).
    destruct (proj2 (eandThen_total _ _ f) s H1 Hf' r') as [b [r4 [Eb Hb]]].
    destruct (IHselem H1 Hf' _ _ _ Eb) as [c' [r5 [r6 [H5 H6]]]]. exists c', r5, r6. split; auto.
    eapply (selem_later _ _ r); [|exact H5]. rewrite (gbind_eq _ _ _ _ _ _ _ _ H). exact Eb.
Qed.

Lemma steady_reach : forall E A (t u : etree E A), ereach t u -> steady t -> steady u.
Proof. intros E A t u H Hs v Hv. apply Hs. eapply ereach_trans; eauto. Qed.

Lemma eandThen_reach_back : forall E A (thn : etree E A -> G E (estream E A)) t u, ereach t u -> etotal t -> steady t ->
  thn_total thn t ->
  forall b r r', eandThen thn t r = Ok (b, r') ->
  exists s r1 r2, ereach b s /\ eandThen thn u r1 = Ok (s, r2).
Proof.
  intros E A f t u H. induction H; intros Ht Hst Hf b r0 r0' K.
  - exists b, r0, r0'. split; auto. constructor.
  - pose proof K as K0. rewrite eandThen_eq in K. apply gbind_ok in K. destruct K as [s0 [r1 [K1 K2]]].
    destruct (Hst t (ereach_refl _)) as [Hl|Hne].
    { exfalso. destruct (Hl r) as [r9 E9]. rewrite H in E9. inversion E9; subst. inversion H0. }
    destruct s0 as [|h0 tl0].
    { exfalso. destruct (Hne r0) as [h [tl [r9 E9]]]. rewrite K1 in E9. discriminate. }
    inversion K2; subst.
    destruct (etotal_force _ _ _ Ht r) as [s1 [r1' [E1 H2]]]. rewrite H in E1. inversion E1; subst s1 r1'.
    assert (Hf' : forall c, selem st c -> thn_total f c).
    { intros c0 Hc0 u Hu. apply Hf. eapply ereach_step; [exact H|exact Hc0|exact Hu]. }
    destruct (proj2 (eandThen_total _ _ f) st H2 Hf' r') as [st' [r4 [Eb Hb]]].
    destruct (eandThen_s_elem_back _ _ f _ _ H0 H2 Hf' _ _ _ Eb) as [c' [r5 [r6 [H5 H6]]]].
    assert (Hrc : ereach t c) by (eapply ereach_step; [exact H|exact H0|constructor]).
    destruct (IHereach (stotal_elem _ _ _ _ H0 H2) (steady_reach _ _ _ _ Hrc Hst) (Hf' _ H0) _ _ _ H6) as [s' [r7 [r8 [H7 H8]]]].
    exists s', r7, r8. split; auto. eapply (ereach_step _ r st'); [|exact H5|exact H7].
    simpl. rewrite (gbind_eq _ _ _ _ _ _ _ _ H). exact Eb.
Qed.

Lemma elift_steady : forall E A (t : tree A), steady (elift (E := E) t).
Proof.
  intros E A t u Hu. destruct (elift_reach _ _ _ _ Hu _ eq_refl) as [v [_ ->]]. rewrite elift_eq.
  destruct (shrinks v) as [|c cs]; [left|right]; intros r; simpl; unfold gret; eauto.
Qed.

Lemma interFunctor_total : forall E T U (g2 : T -> egen E U), g2_total g2 -> fn_total (interFunctor g2).
Proof.
  intros E T U g2 H t r. destruct (H t r) as [u [r' [Eu _]]]. exists (emake (t, u)), r'.
  unfold interFunctor. rewrite (gbind_eq _ _ _ _ _ _ _ _ Eu). auto.
Qed.

Lemma secondShrinks_total : forall E T U (p : etree E (T * etree E U)) r, etotal (snd (eroot p)) ->
  exists st r', secondShrinks p r = Ok (st, r') /\ stotal st.
Proof.
  intros E T U p r H. unfold secondShrinks. destruct (eroot p) as [t u]. simpl in H.
  destruct (proj1 (eflatMap_total E U (T * etree E U) (fun x => gret (emake (t, emake x))) ltac:(intros a r0; eexists; eexists; reflexivity)) u H r) as [b [r1 [Eb Hb]]].
  rewrite (gbind_eq _ _ _ _ _ _ _ _ Eb). apply etotal_force. auto.
Qed.

Lemma inter_reach : forall E T U (g2 : T -> egen E U) tT r I r', eflatMap (interFunctor g2) tT r = Ok (I, r') ->
  forall i, ereach I i -> exists u r1 tU r2, ereach tT u /\ g2 (eroot u) r1 = Ok (tU, r2) /\ eroot i = (eroot u, tU).
Proof.
  intros E T U g2 tT r I r' H i Hi. destruct (eflatMap_reach _ _ _ _ _ _ Hi _ _ _ H) as [u [b1 [b2 [Hu Hu']]]].
  apply eflatMap_root in Hu'. destruct Hu' as [c' [b3 [Hc' Ec]]]. apply interFunctor_ok in Hc'. destruct Hc' as [tU [Hg ->]].
  exists u, b1, tU, b3. auto.
Qed.

Lemma inter_thn_total : forall E T U (g2 : T -> egen E U), g2_total g2 -> forall tT r I r',
  eflatMap (interFunctor g2) tT r = Ok (I, r') -> thn_total secondShrinks I.
Proof.
  intros E T U g2 Hg tT r I r' H i Hi r0. destruct (inter_reach _ _ _ _ _ _ _ _ H _ Hi) as [u [r1 [tU [r2 [_ [H2 H3]]]]]].
  apply secondShrinks_total. rewrite H3. simpl. destruct (Hg (eroot u) r1) as [tU' [r3 [E3 H4]]]. rewrite H2 in E3. inversion E3; subst; auto.
Qed.

Lemma eflatMap_steady : forall E A B (f : A -> egen E B), fn_total f -> forall t r b r', etotal t -> steady t ->
  eflatMap f t r = Ok (b, r') -> steady b.
Proof.
  intros E A B f Hf t r b r' Ht Hs H i Hi. destruct (eflatMap_reach _ _ _ _ _ _ Hi _ _ _ H) as [u [b1 [b2 [Hu Hu']]]].
  rewrite eflatMap_eq in Hu'. apply gbind_ok in Hu'. destruct Hu' as [c [b3 [Hc Hi']]]. inversion Hi'; subst i b3.
  destruct (Hs u Hu) as [Hl|Hn].
  - left. intros r0. destruct (Hl r0) as [r1 E1]. exists r1. simpl. rewrite (gbind_eq _ _ _ _ _ _ _ _ E1). auto.
  - right. intros r0. destruct (Hn r0) as [h [tl [r1 E1]]]. simpl.
    pose proof (etotal_reach _ _ _ _ Hu Ht) as Htu. destruct (etotal_force _ _ _ Htu r0) as [s [r1' [E1' Hs1]]].
    rewrite E1 in E1'. inversion E1'; subst s r1'. rewrite (gbind_eq _ _ _ _ _ _ _ _ E1). cbn [eflatMap_s].
    destruct (proj1 (eflatMap_total _ _ _ f Hf) h (proj1 Hs1) r1) as [h' [r2 [Eh _]]].
    rewrite (gbind_eq _ _ _ _ _ _ _ _ Eh). unfold gret. eauto.
Qed.

Lemma dependent_complete : forall E T U W (g1 : egen E T) (g2 : T -> egen E U) (fin : T * etree E U -> etree E W) r tT r1,
  g1 r = Ok (tT, r1) -> etotal tT -> steady tT -> g2_total g2 ->
  (forall t u, eroot (fin (t, u)) = eroot (fin (t, emake (eroot u)))) ->
  exists b r', dependent g1 g2 fin r = Ok (b, r') /\ etotal b /\
    forall u, ereach tT u -> exists s tU r2 r3, ereach b s /\ g2 (eroot u) r2 = Ok (tU, r3) /\
      eroot s = eroot (fin (eroot u, tU)) /\
      (eleaf u -> forall v, ereach tU v -> exists s', ereach s s' /\ eroot s' = eroot (fin (eroot u, emake (eroot v)))).
Proof.
  intros E T U W g1 g2 fin r tT r1 H1 Ht Hst Hg Hfin.
  pose proof (interFunctor_total _ _ _ _ Hg) as HiT.
  destruct (proj1 (eflatMap_total _ _ _ _ HiT) tT Ht r1) as [I [r2 [EI HI]]].
  pose proof (inter_thn_total _ _ _ _ Hg _ _ _ _ EI) as Hthn.
  destruct (proj1 (eandThen_total _ _ secondShrinks) I HI Hthn r2) as [J [r3 [EJ HJ]]].
  assert (Hfn : fn_total (fun p => gret (E := E) (fin p))) by (intros a r0; eexists; eexists; reflexivity).
  destruct (proj1 (eflatMap_total _ _ _ _ Hfn) J HJ r3) as [b [r4 [Eb Hb]]].
  exists b, r4. split; [|split; auto].
  { unfold dependent. rewrite (gbind_eq _ _ _ _ _ _ _ _ H1), (gbind_eq _ _ _ _ _ _ _ _ EI), (gbind_eq _ _ _ _ _ _ _ _ EJ). auto. }
  intros u Hu.
  destruct (eflatMap_reach_back _ _ _ _ HiT _ _ Hu Ht _ _ _ EI) as [i [a1 [a2 [Hi Ei]]]].
  pose proof (eflatMap_steady _ _ _ _ HiT _ _ _ _ Ht Hst EI) as HsI.
  destruct (eandThen_reach_back _ _ _ _ _ Hi HI HsI Hthn _ _ _ EJ) as [j [a3 [a4 [Hj Ej]]]].
  destruct (eflatMap_reach_back _ _ _ _ Hfn _ _ Hj HJ _ _ _ Eb) as [s [a5 [a6 [Hs Es]]]].
  pose proof (eandThen_root _ _ _ _ _ _ _ Ej) as Rj.
  pose proof Ei as Ei0. rewrite eflatMap_eq in Ei. apply gbind_ok in Ei. destruct Ei as [c [a7 [Ec Ei]]]. apply interFunctor_ok in Ec.
  destruct Ec as [tU [EU ->]]. inversion Ei; subst i a7. simpl in Rj.
  assert (Rs : eroot s = eroot (fin (eroot u, tU))).
  { apply eflatMap_root in Es. destruct Es as [c [a8 [Ec Es]]]. inversion Ec; subst. rewrite Es, Rj. auto. }
  exists s, tU, a1, a2. repeat split; auto.
  intros Hl v Hv.
  rewrite eandThen_eq in Ej. cbn [eshrinks eroot] in Ej.
  destruct (Hl a3) as [a9 E9].
  assert (E10 : gbind (eshrinks u) (eflatMap_s (interFunctor g2)) a3 = Ok (ENil, a9)).
  { rewrite (gbind_eq _ _ _ _ _ _ _ _ E9). auto. }
  rewrite (gbind_eq _ _ _ _ _ _ _ _ E10) in Ej. assert (Hjeq : j = ENode (eroot u, tU) (secondShrinks (ENode (eroot u, tU) (gbind (eshrinks u) (eflatMap_s (interFunctor g2)))))) by (injection Ej; intros; symmetry; assumption). clear Ej.
  set (iu := ENode (eroot u, tU) (gbind (eshrinks u) (eflatMap_s (interFunctor g2)))) in *.
  (* v is the root *)
  inversion Hv as [x Hx1 Hx2|x y st y' c v' Hf Hsel Hre Hx1 Hx2]; subst x; [subst v|subst v'].
  { exists s. split; [constructor|]. rewrite Rs. apply Hfin. }
  assert (HtU : etotal tU).
  { destruct (Hg (eroot u) a1) as [tU' [q [Eq Hq]]]. rewrite EU in Eq. inversion Eq; subst; auto. }
  set (f := fun x : U => gret (E := E) (emake (E := E) (eroot u, emake (E := E) x))).
  assert (Hff : fn_total f) by (intros a r0; eexists; eexists; reflexivity).
  set (n := ENode (eroot u, emake (eroot tU)) (gbind (eshrinks tU) (eflatMap_s f))).
  assert (En : forall q, eflatMap f tU q = Ok (n, q)) by (intros q; rewrite eflatMap_eq; reflexivity).
  assert (Esec : forall q, secondShrinks iu q = eshrinks n q).
  { intros q. unfold secondShrinks, iu. cbn [eroot]. rewrite (gbind_eq _ _ _ _ _ _ _ _ (En q)). auto. }
  destruct (etotal_force _ _ _ HtU y) as [st1 [y1 [Ef Hst1]]]. rewrite Hf in Ef. inversion Ef; subst st1 y1.
  destruct (proj2 (eflatMap_total _ _ _ f Hff) st Hst1 y') as [st' [y2 [Est' Hst']]].
  destruct (eflatMap_s_elem_back _ _ _ f Hff _ _ Hsel Hst1 _ _ _ Est') as [c' [q1 [q2 [Hsel' Ec']]]].
  destruct (eflatMap_reach_back _ _ _ f Hff _ _ Hre (stotal_elem _ _ _ _ Hsel Hst1) _ _ _ Ec') as [w [q3 [q4 [Hw Ew]]]].
  assert (Hjw : ereach j w).
  { rewrite Hjeq. eapply (ereach_step _ y st'); [|exact Hsel'|exact Hw]. cbn [eshrinks]. rewrite Esec. cbn [eshrinks n].
    rewrite (gbind_eq _ _ _ _ _ _ _ _ Hf). exact Est'. }
  destruct (eflatMap_reach_back _ _ _ _ Hfn _ _ Hjw (etotal_reach _ _ _ _ Hj HJ) _ _ _ Es) as [s' [q5 [q6 [Hs' Es']]]].
  exists s'. split; auto. apply eflatMap_root in Es'. destruct Es' as [c2 [q7 [Ec2 ->]]]. inversion Ec2; subst.
  apply eflatMap_root in Ew. destruct Ew as [c3 [q8 [Ec3 ->]]]. inversion Ec3; subst. auto.
Qed.

(* what can be seen *)
Lemma ok_witness : forall A S (x : res (A * S)) (P : A -> S -> Prop),
  match x with Ok (a, s) => P a s | _ => False end -> exists a s, x = Ok (a, s) /\ P a s.
Proof. intros A S [[a s]| | |] P H; try contradiction. eauto. Qed.

(* aggregate *)
Lemma last_shift : forall A (l : list A) u t, last (u :: l) t = last l u.
Proof.
  intros A. induction l as [|a l IH]; intros u t; auto. change (last (u :: a :: l) t) with (last (a :: l) t).
  rewrite (IH a t), (IH a u). auto.
Qed.

Lemma aggregateSteps_ok : forall E T (g2 : T -> egen E T) n t r v r', aggregateSteps n g2 t r = Ok (v, r') ->
  exists l, chained g2 t r l r' /\ length l = n /\ v = last l t.
Proof.
  intros E T g2. induction n as [|n IH]; intros t r v r' H; simpl in H.
  - inversion H; subst. exists []. repeat split. constructor.
  - apply gbind_ok in H. destruct H as [u [r1 [H1 H2]]]. apply IH in H2. destruct H2 as [l [H2 [H3 H4]]].
    exists (u :: l). split; [econstructor; eauto|]. split; [simpl; auto|]. rewrite H4, last_shift. auto.
Qed.

Lemma aggregateSteps_back : forall E T (g2 : T -> egen E T) t r l r', chained g2 t r l r' ->
  aggregateSteps (length l) g2 t r = Ok (last l t, r').
Proof.
  intros E T g2 t r l r' H. induction H; auto. simpl length. cbn [aggregateSteps]. rewrite (gbind_eq _ _ _ _ _ _ _ _ H), IHchained.
  rewrite last_shift. auto.
Qed.

(* accumulate *)
Lemma accumulateSteps_ok : forall E T (g2 : T -> egen E T) n t r v r', accumulateSteps n g2 t r = Ok (v, r') ->
  exists l, chained g2 t r l r' /\ length l = n /\ v = t :: l.
Proof.
  intros E T g2. induction n as [|n IH]; intros t r v r' H; simpl in H.
  - inversion H; subst. exists []. repeat split. constructor.
  - apply gbind_ok in H. destruct H as [u [r1 [H1 H2]]]. apply gbind_ok in H2. destruct H2 as [l [r2 [H2 H3]]]. inversion H3; subst.
    apply IH in H2. destruct H2 as [l' [H2 [H4 ->]]].
    exists (u :: l'). split; [econstructor; eauto|]. split; [simpl; auto|]. auto.
Qed.

Lemma accumulateSteps_back : forall E T (g2 : T -> egen E T) t r l r', chained g2 t r l r' ->
  accumulateSteps (length l) g2 t r = Ok (t :: l, r').
Proof.
  intros E T g2 t r l r' H. induction H; auto. simpl length. cbn [accumulateSteps]. rewrite (gbind_eq _ _ _ _ _ _ _ _ H).
  rewrite (gbind_eq _ _ _ _ _ _ _ _ IHchained). auto.
Qed.

Lemma lastShrinks_elem : forall E T (vec : list (etree E T)) st c, selem st c -> forall s, st = lastShrinks vec s ->
  exists h, selem s h /\ c = emake (removelast vec ++ [h]).
Proof.
  intros E T vec st c H. induction H; intros [|h' tl'] E0; inversion E0; subst.
  - exists h'. split; auto. constructor.
  - apply gbind_ok in H. destruct H as [s' [r1 [H1 H2]]]. inversion H2; subst.
    destruct (IHselem _ eq_refl) as [h [H3 H4]]. exists h. split; auto. eapply selem_later; eauto.
Qed.

Lemma shrinkLast_elem : forall E T (p : etree E (list (etree E T))) r st r' c s,
  shrinkLast p r = Ok (st, r') -> selem st c -> ereach c s ->
  exists pre x r1 sx r2 h, eroot p = pre ++ [x] /\ eshrinks x r1 = Ok (sx, r2) /\ selem sx h /\ eroot s = pre ++ [h].
Proof.
  intros E T p r st r' c s H Hc Hs. unfold shrinkLast in H. destruct (rev (eroot p)) as [|x q] eqn:Er.
  - inversion H; subst. inversion Hc.
  - apply gbind_ok in H. destruct H as [sx [r1 [H1 H2]]]. inversion H2; subst.
    destruct (lastShrinks_elem _ _ _ _ _ Hc _ eq_refl) as [h [H3 ->]]. apply emake_reach in Hs. subst s.
    assert (Ep : eroot p = rev q ++ [x]) by (rewrite <- (rev_involutive (eroot p)), Er; auto).
    exists (rev q), x, r, sx, r', h. repeat split; auto. simpl. rewrite Ep, removelast_last. auto.
Qed.
