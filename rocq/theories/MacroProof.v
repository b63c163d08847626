(** The parser accepts exactly the grammar. *)
From Coq Require Import List ZArith Bool Lia Arith.
From Verif Require Import Base MacroModel MacroSpec ConcGoProof.
Import ListNotations.
Local Open Scope list_scope.

Lemma mono : forall f, (forall n t x f', pexp f n t = Ok x -> f <= f' -> pexp f' n t = Ok x) /\
  (forall n e t x f', ploop f n e t = Ok x -> f <= f' -> ploop f' n e t = Ok x).
Proof.
  induction f as [|f [IHp IHl]]; split; try discriminate.
  - intros n t x f' H L. destruct f' as [|f']; [lia|]. assert (L' : f <= f') by lia. cbn [pexp] in *.
    destruct (n =? 0).
    { destruct t as [|[] t]; auto. apply bind_ok in H as ([e r] & H1 & H2). rewrite (IHp _ _ _ _ H1 L'). auto. }
    destruct (n =? 1).
    { destruct t as [|[ | | | | |o| | ] t]; try (eapply IHp; eauto; fail).
      - apply bind_ok in H as ([e r] & H1 & H2). rewrite (IHp _ _ _ _ H1 L'). auto.
      - apply bind_ok in H as ([e r] & H1 & H2). rewrite (IHp _ _ _ _ H1 L'). auto.
      - destruct o; try (eapply IHp; eauto; fail). apply bind_ok in H as ([e r] & H1 & H2). rewrite (IHp _ _ _ _ H1 L'). auto. }
    destruct (n =? top).
    { apply bind_ok in H as ([e r] & H1 & H2). rewrite (IHp _ _ _ _ H1 L'). cbn [bind]. destruct r as [|[] r]; auto.
      apply bind_ok in H2 as ([e2 r2] & H2 & H3). rewrite (IHp _ _ _ _ H2 L'). cbn [bind]. destruct r2 as [|[] r2]; auto.
      apply bind_ok in H3 as ([e3 r3] & H3 & H4). rewrite (IHp _ _ _ _ H3 L'). auto. }
    apply bind_ok in H as ([e r] & H1 & H2). rewrite (IHp _ _ _ _ H1 L'). cbn [bind]. eauto.
  - intros n e t x f' H L. destruct f' as [|f']; [lia|]. assert (L' : f <= f') by lia. cbn [ploop] in *.
    destruct t as [|[ | | | | |o| | ] t]; auto. destruct (level o =? n); auto.
    apply bind_ok in H as ([e2 r] & H1 & H2). rewrite (IHp _ _ _ _ H1 L'). cbn [bind]. eauto.
Qed.
Lemma mono_p : forall f n t x f', pexp f n t = Ok x -> f <= f' -> pexp f' n t = Ok x.
Proof. intros. eapply (proj1 (mono f)); eauto. Qed.
Lemma mono_l : forall f n e t x f', ploop f n e t = Ok x -> f <= f' -> ploop f' n e t = Ok x.
Proof. intros. eapply (proj2 (mono f)); eauto. Qed.

(** The tokens after an expression of level [n] do not continue with something binding tighter. *)
Definition stops (n : nat) (rest : list tok) : Prop :=
  match rest with TOp o :: _ => n <= level o | TQ :: _ => n < top | _ => True end.
Definition result (n : nat) (e : expr) (rest : list tok) (x : expr * list tok) : Prop :=
  if (n <=? 1) || (n =? top) then x = (e, rest) else exists F, ploop F n e rest = Ok x.

Lemma level_range : forall o, 2 <= level o <= 11.
Proof. intros []; cbn; lia. Qed.
Lemma stop_result : forall n e rest, stops (S n) rest -> n <= 11 -> result n e rest (e, rest).
Proof.
  intros n e rest H L. unfold result. destruct ((n <=? 1) || (n =? top)) eqn:E; auto. exists 1. cbn [ploop].
  destruct rest as [|[ | | | | |o| | ] r]; auto. cbn in H. destruct (level o =? n) eqn:El; auto. apply Nat.eqb_eq in El. lia.
Qed.
Lemma stops_mono : forall n m rest, stops n rest -> m <= n -> stops m rest.
Proof. intros n m [|[ | | | | |o| | ] r]; cbn; auto; lia. Qed.
Lemma prim_head : forall n t e, derives n t e -> n = 0 -> exists h r, t = h :: r /\ (exists x, h = TAtom x) \/ exists r, t = TL :: r.
Proof.
  intros n t e H E. destruct H; try discriminate.
  - exists (TAtom x), []. left. eauto.
  - exists TL, []. right. eauto.
  - assert (L := level_range o). lia.
Qed.

Lemma complete : forall n t e, derives n t e -> forall rest x, stops n rest -> result n e rest x -> exists F, pexp F n (t ++ rest) = Ok x.
Proof.
  intros n t e H. induction H as [y|t e H IH|t e H IH|t e H IH|t e H IH|o t1 t2 e1 e2 H1 IH1 H2 IH2|t1 t2 t3 e1 e2 e3 H1 IH1 H2 IH2 H3 IH3|n t e Hn H IH]; intros rest x Hs Hr.
  - unfold result in Hr. cbn in Hr. subst x. exists 1. reflexivity.
  - unfold result in Hr. cbn in Hr. subst x. destruct (IH (TR :: rest) (e, TR :: rest)) as [F HF]; [exact I|reflexivity|].
    exists (S F). cbn [app pexp Nat.eqb]. rewrite <- app_assoc. cbn [app]. rewrite HF. reflexivity.
  - unfold result in Hr. cbn in Hr. subst x. destruct (IH rest (e, rest) Hs) as [F HF]; [reflexivity|]. exists (S F). cbn [app pexp Nat.eqb]. rewrite HF. reflexivity.
  - unfold result in Hr. cbn in Hr. subst x. destruct (IH rest (e, rest) Hs) as [F HF]; [reflexivity|]. exists (S F). cbn [app pexp Nat.eqb]. rewrite HF. reflexivity.
  - unfold result in Hr. cbn in Hr. subst x. destruct (IH rest (e, rest) Hs) as [F HF]; [reflexivity|]. exists (S F). cbn [app pexp Nat.eqb]. rewrite HF. reflexivity.
  - assert (L := level_range o). rewrite <- app_assoc. cbn [app]. destruct (IH2 rest (e2, rest)) as [F2 HF2].
    { eapply stops_mono; eauto. lia. }
    { apply stop_result; [|lia]. replace (S (level o - 1)) with (level o) by lia. auto. }
    assert (X : result (level o) e1 (TOp o :: t2 ++ rest) x).
    { unfold result in *. replace ((level o <=? 1) || (level o =? top)) with false in * by (symmetry; apply orb_false_intro; [apply Nat.leb_gt|apply Nat.eqb_neq]; unfold top; lia).
      destruct Hr as [F HF]. exists (S (max F F2)). cbn [ploop]. rewrite Nat.eqb_refl. rewrite (mono_p _ _ _ _ (max F F2) HF2) by lia. cbn [bind]. eapply mono_l; eauto. lia. }
    apply IH1; auto. cbn [stops]. lia.
  - unfold result in Hr. cbn in Hr. subst x. rewrite <- app_assoc. cbn [app]. rewrite <- app_assoc. cbn [app].
    destruct (IH1 (TQ :: t2 ++ TColon :: t3 ++ rest) (e1, TQ :: t2 ++ TColon :: t3 ++ rest)) as [F1 HF1]; [unfold stops, top; lia|exists 1; reflexivity|].
    destruct (IH2 (TColon :: t3 ++ rest) (e2, TColon :: t3 ++ rest)) as [F2 HF2]; [exact I|reflexivity|].
    destruct (IH3 rest (e3, rest)) as [F3 HF3]; [exact Hs|reflexivity|]. exists (S (F1 + F2 + F3)). cbn [pexp].
    change (top =? 0) with false. change (top =? 1) with false. change (top =? top) with true. cbv iota.
    rewrite (mono_p _ _ _ _ (F1 + F2 + F3) HF1) by lia. cbn [bind]. rewrite (mono_p _ _ _ _ (F1 + F2 + F3) HF2) by lia. cbn [bind]. rewrite (mono_p _ _ _ _ (F1 + F2 + F3) HF3) by lia. reflexivity.
  - destruct (IH rest (e, rest)) as [F HF]; [eapply stops_mono; eauto|apply stop_result; auto; unfold top in *; lia|].
    destruct (Nat.eq_dec n 0) as [->|N0].
    { unfold result in Hr. cbn in Hr. subst x. exists (S F). cbn [pexp Nat.eqb]. destruct (prim_head _ _ _ H eq_refl) as (h & r & [(-> & y & ->)|(r' & ->)]); exact HF. }
    destruct (Nat.eq_dec n 11) as [->|N11].
    { unfold result in Hr. cbn in Hr. subst x. exists (S F). cbn [pexp]. change (12 =? 0) with false. change (12 =? 1) with false. change (12 =? top) with true. cbv iota.
      rewrite HF. cbn [bind]. destruct rest as [|[] r]; auto. unfold stops, top in Hs. lia. }
    unfold result in Hr. replace ((S n <=? 1) || (S n =? top)) with false in Hr by (symmetry; apply orb_false_intro; [apply Nat.leb_gt|apply Nat.eqb_neq]; unfold top in *; lia).
    destruct Hr as [F2 HF2]. exists (S (max F F2)). cbn [pexp].
    replace (S n =? 0) with false by auto. replace (S n =? 1) with false by (symmetry; apply Nat.eqb_neq; lia). replace (S n =? top) with false by (symmetry; apply Nat.eqb_neq; unfold top in *; lia).
    replace (S n - 1) with n by lia. rewrite (mono_p _ _ _ _ (max F F2) HF) by lia. cbn [bind]. eapply mono_l; eauto. lia.
Qed.

Lemma lift_to : forall n m t e, derives n t e -> n <= m <= top -> derives m t e.
Proof.
  intros n m t e H [L1 L2]. induction m as [|m IH]; [replace 0 with n by lia; auto|]. destruct (Nat.eq_dec n (S m)) as [->|N]; auto. apply d_lift; [unfold top in *; lia|]. apply IH; lia.
Qed.
Lemma sound : forall F, (forall n t e r, n <= top -> pexp F n t = Ok (e, r) -> exists t1, t = t1 ++ r /\ derives n t1 e) /\
  (forall n e0 t e r, 2 <= n <= 11 -> ploop F n e0 t = Ok (e, r) -> forall t0, derives n t0 e0 -> exists t1, t = t1 ++ r /\ derives n (t0 ++ t1) e).
Proof.
  induction F as [|F [IHp IHl]]; split; try discriminate.
  - intros n t e r L H. cbn [pexp] in H. destruct (Nat.eqb_spec n 0) as [->|N0].
    { destruct t as [|[] t]; try discriminate.
      - injection H as <- <-. exists [TAtom x]. split; auto. constructor.
      - apply bind_ok in H as ([e1 r1] & H1 & H2). destruct (IHp _ _ _ _ (le_n _) H1) as (t1 & -> & D). destruct r1 as [|[] r1]; try discriminate. injection H2 as <- <-.
        exists (TL :: t1 ++ [TR]). split; [cbn; rewrite <- app_assoc; auto|]. constructor; auto. }
    destruct (Nat.eqb_spec n 1) as [->|N1].
    { assert (L1 : 1 <= top) by (unfold top; lia).
      assert (P : pexp F 0 t = Ok (e, r) -> exists t1, t = t1 ++ r /\ derives 1 t1 e).
      { intros HP. destruct (IHp 0 _ _ _ (Nat.le_0_l _) HP) as (t1 & -> & D). exists t1. split; auto. apply d_lift; auto. }
      destruct t as [|[ | | | | |o| | ] t]; auto.
      - apply bind_ok in H as ([e1 r1] & H1 & H2). injection H2 as <- <-. destruct (IHp _ _ _ _ L1 H1) as (t1 & -> & D). exists (TNot :: t1). split; auto. constructor; auto.
      - apply bind_ok in H as ([e1 r1] & H1 & H2). injection H2 as <- <-. destruct (IHp _ _ _ _ L1 H1) as (t1 & -> & D). exists (TTilde :: t1). split; auto. constructor; auto.
      - destruct o; auto. apply bind_ok in H as ([e1 r1] & H1 & H2). injection H2 as <- <-. destruct (IHp _ _ _ _ L1 H1) as (t1 & -> & D). exists (TOp Sub :: t1). split; auto. constructor; auto. }
    destruct (Nat.eqb_spec n top) as [->|NT].
    { apply bind_ok in H as ([e1 r1] & H1 & H2). assert (L1 : 11 <= top) by (unfold top; lia). destruct (IHp _ _ _ _ L1 H1) as (t1 & -> & D1).
      assert (P : Ok (e1, r1) = Ok (e, r) -> exists t2, t1 ++ r1 = t2 ++ r /\ derives top t2 e).
      { intros HP. injection HP as <- <-. exists t1. split; auto. apply d_lift; auto. }
      destruct r1 as [|[] r1]; auto.
      apply bind_ok in H2 as ([e2 r2] & H2 & H3). destruct (IHp _ _ _ _ (le_n _) H2) as (t2 & -> & D2). destruct r2 as [|[] r2]; try discriminate.
      apply bind_ok in H3 as ([e3 r3] & H3 & H4). destruct (IHp _ _ _ _ (le_n _) H3) as (t3 & -> & D3). injection H4 as <- <-.
      exists (t1 ++ TQ :: t2 ++ TColon :: t3). split; [repeat (rewrite <- app_assoc; cbn [app]); auto|]. constructor; auto. }
    apply bind_ok in H as ([e1 r1] & H1 & H2). destruct (IHp (n - 1) _ _ _ ltac:(lia) H1) as (t1 & -> & D1).
    destruct (IHl n _ _ _ _ ltac:(unfold top in *; lia) H2 t1) as (t2 & -> & D2). { apply (lift_to (n - 1)); auto. lia. }
    exists (t1 ++ t2). split; auto. apply app_assoc.
  - intros n e0 t e r L H t0 D0. cbn [ploop] in H.
    assert (P : Ok (e0, t) = Ok (e, r) -> exists t1, t = t1 ++ r /\ derives n (t0 ++ t1) e).
    { intros HP. injection HP as <- <-. exists []. rewrite app_nil_r. auto. }
    destruct t as [|[ | | | | |o| | ] t]; auto. destruct (Nat.eqb_spec (level o) n) as [El|N]; auto.
    apply bind_ok in H as ([e2 r2] & H1 & H2). destruct (IHp (n - 1) _ _ _ ltac:(unfold top; lia) H1) as (t1 & -> & D1).
    destruct (IHl n _ _ _ _ L H2 (t0 ++ TOp o :: t1)) as (t2 & -> & D2).
    { rewrite <- El. apply d_bin; rewrite El; auto. }
    exists (TOp o :: t1 ++ t2). split; [cbn; rewrite <- app_assoc; auto|]. rewrite <- app_assoc in D2. auto.
Qed.

Theorem parse_grammar : forall t e, derives top t e <-> exists F, parse F t = Ok e.
Proof.
  intros t e. split.
  - intros H. destruct (complete _ _ _ H [] (e, [])) as [F HF]; [exact I|reflexivity|]. rewrite app_nil_r in HF. exists F. unfold parse. rewrite HF. reflexivity.
  - intros (F & H). unfold parse in H. apply bind_ok in H as ([e1 r] & H1 & H2). destruct r; [|discriminate]. injection H2 as <-.
    destruct (proj1 (sound F) _ _ _ _ (le_n _) H1) as (t1 & -> & D). rewrite app_nil_r. auto.
Qed.
Lemma parse_mono : forall F t e F', parse F t = Ok e -> F <= F' -> parse F' t = Ok e.
Proof. intros F t e F' H L. unfold parse in *. apply bind_ok in H as ([e1 r] & H1 & H2). rewrite (mono_p _ _ _ _ _ H1 L). auto. Qed.
Lemma unambiguous : forall n t e e', n <= top -> derives n t e -> derives n t e' -> e = e'.
Proof.
  intros n t e e' L H H'. apply (lift_to n top) in H; [|split; auto]. apply (lift_to n top) in H'; [|split; auto].
  apply parse_grammar in H as (F & HF). apply parse_grammar in H' as (F' & HF'). apply (parse_mono _ _ _ (F + F')) in HF; [|lia]. apply (parse_mono _ _ _ (F + F')) in HF'; [|lia]. congruence.
Qed.
Lemma derives_parse : forall t e, derives top t e -> eventually (fun F => parse F t) e.
Proof. intros t e H. apply parse_grammar in H as (F & HF). exists F. intros n L. eapply parse_mono; eauto. Qed.
