From Coq Require Import List ZArith Lia Bool SpecFloat Permutation.
From Verif Require Import Base TreeModel TreeSpec TreeProof BinSearchModel BinSearchProof PropInt BoolProof RandomModel ContainerModel IntegralSpec IntegralProof FloatModel FloatSpec FloatProof FloatTree PropFloat
  SearchSpec SearchProof EffortSpec EffortProof FloatSearchSpec.
Import ListNotations.
Local Open Scope Z_scope.

(* scaling *)
Lemma atMost_scale : forall a k b j n, n <= k -> n <= j -> (atMost a k b j <-> a * 2 ^ (k - n) <= b * 2 ^ (j - n)).
Proof.
  intros a k b j n Hk Hj. unfold atMost. set (q := Z.min k j). assert (Q : n <= q) by (unfold q; lia).
  assert (P : 0 < 2 ^ (q - n)) by (apply Z.pow_pos_nonneg; lia).
  replace (2 ^ (k - n)) with (2 ^ (k - q) * 2 ^ (q - n)) by (rewrite <- Z.pow_add_r by (unfold q in *; lia); f_equal; lia).
  replace (2 ^ (j - n)) with (2 ^ (j - q) * 2 ^ (q - n)) by (rewrite <- Z.pow_add_r by (unfold q in *; lia); f_equal; lia).
  rewrite !Z.mul_assoc. set (A := a * _). set (B := b * _). split; intros H; nia.
Qed.
Lemma exactly_inv : forall v s m k, 0 < m -> exactly v (sgn s m) k -> exists m' e', v = S754_finite s m' e' /\ forall n, n <= e' -> n <= k -> Zpos m' * 2 ^ (e' - n) = m * 2 ^ (k - n).
Proof.
  intros v s m k Hm H. destruct v as [t|t| |t m' e']; cbn [exactly] in H; try (destruct s; cbn [sgn] in H; lia); try contradiction.
  set (q := Z.min e' k) in *. assert (P1 : 0 < 2 ^ (e' - q)) by (apply Z.pow_pos_nonneg; unfold q; lia). assert (P2 : 0 < 2 ^ (k - q)) by (apply Z.pow_pos_nonneg; unfold q; lia).
  assert (t = s) by (destruct t, s; cbn [sgn] in H; auto; exfalso; nia). subst t. exists m', e'. split; auto.
  assert (H' : Zpos m' * 2 ^ (e' - q) = m * 2 ^ (k - q)) by (destruct s; cbn [sgn] in H; lia).
  intros n H1 H2. replace (2 ^ (e' - n)) with (2 ^ (e' - q) * 2 ^ (q - n)) by (rewrite <- Z.pow_add_r by (unfold q in *; lia); f_equal; lia).
  replace (2 ^ (k - n)) with (2 ^ (k - q) * 2 ^ (q - n)) by (rewrite <- Z.pow_add_r by (unfold q in *; lia); f_equal; lia). nia.
Qed.
Lemma exactly_self : forall s m e, exactly (S754_finite s m e) (sgn s (Zpos m)) e.
Proof. intros. cbn. reflexivity. Qed.
Lemma exactly_mono : forall v w s m k j, 0 < m -> k <= j -> exactly v (sgn s m) k -> exactly w (sgn s m) j -> noFurther v w.
Proof.
  intros v w s m k j Hm Hk Hv Hw. destruct (exactly_inv _ _ _ _ Hm Hv) as (m1 & e1 & -> & E1). destruct (exactly_inv _ _ _ _ Hm Hw) as (m2 & e2 & -> & E2).
  cbn. split; auto. set (n := Z.min (Z.min e1 e2) (Z.min k j)). apply (atMost_scale _ _ _ _ n); try (unfold n; lia). rewrite E1, E2 by (unfold n; lia).
  apply Z.mul_le_mono_nonneg_l; [lia|]. apply Z.pow_le_mono_r; unfold n; lia.
Qed.

(* the search follows that of the exponent *)
Definition shown (s : bool) (m e : Z) (v : spec_float) (x : Z) : Prop := exactly v (sgn s m) (e + x) \/ exactly v (sgn s 1) (x - 1).
Lemma follow_scan : forall s m e (fails : spec_float -> Prop) (F : Z -> Prop) cs tried found, scan fails cs tried found ->
  forall ts us, cs = map calm us -> Forall2 (follows s m e) ts us ->
  (forall x v, In x (flat_map values ts) -> exactly v (sgn s m) (e + x) -> (F x <-> fails v)) ->
  exists tried' found', scan F ts tried' found' /\
    match found with None => found' = None | Some u => fails (root u) /\ exists t, found' = Some t /\ shown s m e (root u) (root t) end.
Proof.
  intros s m e fails F cs tried found H. induction H as [|c cs tried found Hn Hs IH|c cs tried found Hf Hs IH]; intros ts us Hc HF HE.
  - destruct us; [|discriminate]. inversion HF; subst. exists [], None. split; [constructor|auto].
  - destruct us as [|u us]; [discriminate|]. cbn [map] in Hc. inversion Hc; subst c cs. inversion HF as [|t u' ts' us' Hfo HF']; subst.
    destruct (IH ts' us eq_refl HF') as (tr & fo & S1 & S2). { intros x v Hx. apply HE. cbn [flat_map]. apply in_or_app. auto. }
    exists (root t :: tr), fo. split; auto. apply scan_pass; auto. destruct t as [x kids]. apply follows_inv in Hfo. destruct Hfo as (v & l & -> & Hv & _). cbn [root] in *. cbn in Hn.
    intros B. apply Hn. apply (HE x v); auto. cbn. auto.
  - destruct us as [|u us]; [discriminate|]. cbn [map] in Hc. inversion Hc; subst c cs. inversion HF as [|t u' ts' us' Hfo HF']; subst.
    destruct t as [x kids]. apply follows_inv in Hfo. destruct Hfo as (v & l & -> & Hv & D). cbn in Hf. cbn [calm shrinks] in Hs, IH.
    assert (Fx : F x) by (apply (HE x v); auto; cbn; auto). destruct D as [(_ & _ & Hk)|(-> & h & -> & Hh & Hl)].
    + destruct (IH kids l eq_refl Hk) as (tr & fo & S1 & S2). { intros y w Hy. apply HE. cbn. right. apply in_or_app. auto. }
      exists (x :: tr), (Some (match fo with Some q => q | None => Node x kids end)). split; [apply (scan_fail F (Node x kids)); auto|].
      destruct found as [q|].
      * destruct S2 as (S2 & q' & -> & S3). split; auto. exists q'. auto.
      * subst fo. split; [exact Hf|]. exists (Node x kids). split; auto. left. exact Hv.
    + exists [x], (Some (Node x [])). split; [apply (scan_fail F (Node x []) ts' [] None); auto; constructor|].
      assert (R : root (calm h) = fvalue h) by (destruct h; reflexivity).
      assert (K : shrinks (calm h) = []) by (destruct h; [destruct Hl as [-> _]|]; reflexivity).
      destruct found as [q|]; [|split; [exact Hf|]; exists (Node x []); split; auto; left; exact Hv].
      cbn [map] in Hs. inversion Hs as [|c0 cs0 t0 f0 Hn0 Hs0|c0 cs0 t0 f0 Hf0 Hs0]; subst; [inversion Hs0|]. 
      rewrite K in Hs0. assert (f0 = None) by (inversion Hs0; auto).
      subst f0. split; [exact Hf0|]. exists (Node x []). split; auto. right. cbn [root]. rewrite R. exact Hh.
Qed.

Lemma same_magnitude : forall (fails : spec_float -> Prop) v w s m k, grows fails -> 0 < m -> exactly v (sgn s m) k -> exactly w (sgn s m) k -> (fails v <-> fails w).
Proof. intros fails v w s m k [G _] Hm Hv Hw. split; apply G; eapply exactly_mono; eauto; lia. Qed.

(* what is half of a value is no further than that with the exponent below *)
Lemma half_below : forall w v s m e x, halfOf w v -> 0 < m -> exactly v (sgn s m) (e + x) -> noFurther w (S754_finite s (Z.to_pos m) (e + (x - 1))).
Proof.
  intros w v s m e x H Hm Hv. destruct (exactly_inv _ _ _ _ Hm Hv) as (m1 & e1 & -> & E1). destruct w as [t|t| |t m2 e2]; cbn in H; try contradiction. destruct H as [-> H].
  cbn. split; auto. rewrite Z2Pos.id by auto. set (n := Z.min (Z.min e1 e2) (e + x - 1)). apply (atMost_scale _ _ _ _ n) in H; try (unfold n; lia). apply (atMost_scale _ _ _ _ n); try (unfold n; lia).
  rewrite E1 in H by (unfold n; lia). replace (e + x - n) with (1 + (e + (x - 1) - n)) in H by lia. rewrite Z.pow_add_r in H by (unfold n; lia). change (2 ^ 1) with 2 in H. nia.
Qed.
Lemma half_power : forall w v s m e x, halfOf w v -> 0 < m -> e < 0 -> 2 ^ (- e - 1) <= m -> exactly v (sgn s 1) (x - 1) -> noFurther w (S754_finite s (Z.to_pos m) (e + (x - 1))).
Proof.
  intros w v s m e x H Hm He Hl Hv. destruct (exactly_inv _ _ 1 _ ltac:(lia) Hv) as (m1 & e1 & -> & E1). destruct w as [t|t| |t m2 e2]; cbn in H; try contradiction. destruct H as [-> H].
  cbn. split; auto. rewrite Z2Pos.id by auto. set (n := Z.min (Z.min e1 e2) (e + (x - 1))). apply (atMost_scale _ _ _ _ n) in H; try (unfold n; lia). apply (atMost_scale _ _ _ _ n); try (unfold n; lia).
  rewrite E1 in H by (unfold n; lia). assert (P : 0 < 2 ^ (e + (x - 1) - n)) by (apply Z.pow_pos_nonneg; unfold n; lia).
  replace (x - 1 - n) with ((- e - 1) + (1 + (e + (x - 1) - n))) in H by lia. rewrite !Z.pow_add_r in H by (unfold n; lia). change (2 ^ 1) with 2 in H. nia.
Qed.
Lemma shown_belowOne : forall s m e v, 0 < m -> e < 0 -> m < 2 ^ (- e) -> shown s m e v 0 -> belowOne v.
Proof.
  intros s m e v Hm He Hb [H|H].
  - destruct (exactly_inv _ _ _ _ Hm H) as (m1 & e1 & -> & E1). cbn. specialize (E1 (Z.min e1 e)). rewrite Z.add_0_r in E1. specialize (E1 ltac:(lia) ltac:(lia)). set (n := Z.min e1 e) in *.
    assert (P : 0 < 2 ^ (e - n)) by (apply Z.pow_pos_nonneg; unfold n; lia).
    assert (Q : m * 2 ^ (e - n) < 2 ^ (- n)) by (replace (- n) with (- e + (e - n)) by lia; rewrite Z.pow_add_r by (unfold n; lia); nia).
    assert (P1 : 0 < 2 ^ (e1 - n)) by (apply Z.pow_pos_nonneg; unfold n; lia).
    assert (N : e1 < 0). { destruct (Z.lt_ge_cases e1 0); auto. exfalso. assert (2 ^ (- n) <= 2 ^ (e1 - n)) by (apply Z.pow_le_mono_r; lia). nia. }
    split; auto. apply (Z.mul_lt_mono_pos_r (2 ^ (e1 - n))); auto. rewrite <- Z.pow_add_r by (unfold n; lia). replace (- e1 + (e1 - n)) with (- n) by lia. lia.
  - destruct (exactly_inv _ _ 1 _ ltac:(lia) H) as (m1 & e1 & -> & E1). cbn. specialize (E1 (Z.min e1 (-1)) ltac:(lia) ltac:(lia)). set (n := Z.min e1 (-1)) in *.
    replace (0 - 1 - n) with (-1 - n) in E1 by lia.
    assert (P : 0 < 2 ^ (-1 - n)) by (apply Z.pow_pos_nonneg; unfold n; lia).
    assert (Q : 2 ^ (- n) = 2 * 2 ^ (-1 - n)) by (rewrite <- Z.pow_succ_r by (unfold n; lia); f_equal; lia).
    assert (P1 : 0 < 2 ^ (e1 - n)) by (apply Z.pow_pos_nonneg; unfold n; lia).
    assert (N : e1 < 0). { destruct (Z.lt_ge_cases e1 0); auto. exfalso. assert (2 ^ (- n) <= 2 ^ (e1 - n)) by (apply Z.pow_le_mono_r; lia). nia. }
    split; auto. apply (Z.mul_lt_mono_pos_r (2 ^ (e1 - n))); auto. rewrite <- Z.pow_add_r by (unfold n; lia). replace (- e1 + (e1 - n)) with (- n) by lia. nia.
Qed.

Lemma exponent_found : forall s m e0 X T us (fails : spec_float -> Prop) tried found (v : spec_float), magnitude (S754_finite s m e0) X -> in_int64 X -> binarySearch X = Ok T ->
  Forall2 (follows s (Zpos m) (e0 - X)) (shrinks T) us -> grows fails -> fails v -> (v = S754_finite s m e0 \/ v = S754_infinity s /\ 1 <= X) -> scan fails (map calm us) tried found ->
  let r := root (ending (Node v []) found) in
  fails r /\ match r with S754_finite t _ _ => t = s | S754_infinity t => t = s /\ found = None | _ => False end /\
  (belowOne r \/ forall w, halfOf w (match found with None => S754_finite s m e0 | Some _ => r end) -> ~ fails w).
Proof.
  intros s m e0 X T us fails tried found v HM HI HB HF HG Hv Hb HS r. destruct HM as [He HM].
  set (e := e0 - X) in *. assert (N : e < 0) by (unfold e; lia).
  assert (L1 : 2 ^ (- e - 1) <= Zpos m) by (unfold e; replace (- (e0 - X) - 1) with (X - 1 - e0) by lia; lia).
  assert (L2 : Zpos m < 2 ^ (- e)) by (unfold e; replace (- (e0 - X)) with (X - e0) by lia; lia).
  set (F := fun x => x = X \/ fails (S754_finite s m (e + x))).
  destruct (C06_signed_shrink_once X T HI HB) as [ND Hall]. destruct (C06_signed_shrink X HI) as (T' & HB' & HR & _ & _ & Hz & _). rewrite HB in HB'. inversion HB'; subst T'. clear HB'.
  assert (XM : Forall (fun x => x <> X) (flat_map values (shrinks T))).
  { apply Forall_forall. intros x Hx ->. destruct T as [a ts]. cbn [root shrinks] in *. subst a. cbn [values] in ND. inversion ND; subst. contradiction. }
  assert (FE : forall x w, In x (flat_map values (shrinks T)) -> exactly w (sgn s (Zpos m)) (e + x) -> (F x <-> fails w)).
  { intros x w Hx Hw. rewrite Forall_forall in XM. specialize (XM x Hx). unfold F. assert (Q := same_magnitude fails _ _ s (Zpos m) _ HG ltac:(lia) (exactly_self s m (e + x)) Hw).
    split; [intros [?|?]; [contradiction|tauto]|tauto]. }
  destruct (follow_scan s (Zpos m) e fails F _ _ _ HS (shrinks T) us eq_refl HF FE) as (tr & fo & S1 & S2).
  assert (FM : forall x y, x <= y -> y <= X -> F x -> F y).
  { intros x y H1 H2 [->|H3]; [left; lia|]. right. apply (proj1 HG (S754_finite s m (e + x))); auto. apply (exactly_mono _ _ s (Zpos m) (e + x) (e + y)); try lia; apply exactly_self. }
  assert (VX : shown s (Zpos m) e (S754_finite s m e0) X) by (left; unfold e; replace (e0 - X + X) with e0 by lia; apply exactly_self).
  assert (RS : forall x w, shown s (Zpos m) e w x -> exists m' e', w = S754_finite s m' e').
  { intros x w [H|H]; apply exactly_inv in H; try lia; destruct H as (m' & e' & -> & _); eauto. }
  assert (Last : forall x, (forall y, 0 <= y < x -> ~ F y) -> 0 <= x <= X -> forall u, shown s (Zpos m) e u x -> belowOne u \/ forall w, halfOf w u -> ~ fails w).
  { intros x Hx Hr u Hu. destruct (Z.eq_dec x 0) as [->|]; [left; apply (shown_belowOne s (Zpos m) e); auto; lia|]. right. intros w Hw Hf. apply (Hx (x - 1)); [lia|]. right.
    assert (noFurther w (S754_finite s m (e + (x - 1)))) by (destruct Hu as [Hu|Hu]; [apply (half_below _ _ _ (Zpos m) _ _ Hw ltac:(lia) Hu)|apply (half_power _ _ _ (Zpos m) _ _ Hw ltac:(lia) N L1 Hu)]).
    eapply (proj1 HG); eauto. }
  destruct (Z.lt_ge_cases X 0) as [Neg|Pos].
  - destruct (Hz ltac:(lia)) as (q & Hq). rewrite Hq in S1.
    assert (F0 : fails (S754_finite s m (e + 0))).
    { destruct Hb as [->|[-> ?]]; [|lia]. apply (proj1 HG (S754_finite s m e0)); auto. apply (exactly_mono _ _ s (Zpos m) e0 (e + 0)); try (unfold e; lia); apply exactly_self. }
    inversion S1 as [|c cs t f Hn Hs|c cs t f Hf Hs]; subst; [exfalso; apply Hn; right; exact F0|]. cbn [shrinks] in Hs. inversion Hs; subst.
    destruct found as [u|]; [|discriminate]. destruct S2 as (S2 & t & E & S3). inversion E; subst t. unfold r. cbn [ending root] in *. split; auto. split; [destruct (RS _ _ S3) as (? & ? & ->); auto|].
    left. apply (shown_belowOne s (Zpos m) e); auto; lia.
  - rewrite (binarySearch_pos X) in HB by (unfold in_int64 in HI; lia). inversion HB; subst T. clear HB.
    assert (B := bs_finds F X tr fo S1 ltac:(unfold in_int64, INT64_MAX, UINT64_MAX in *; lia) (or_introl eq_refl)). cbv zeta in B. destruct B as (B1 & B2 & B3). { intros x y H1 H2. apply FM; lia. }
    destruct found as [u|].
    + destruct S2 as (S2 & t & -> & S3). unfold r. cbn [ending root] in *. split; auto. split; [destruct (RS _ _ S3) as (? & ? & ->); auto|]. eapply Last; eauto.
    + subst fo. unfold r. cbn [ending root] in *. rewrite bs_abs_root in *. split; auto. split; [destruct Hb as [->|[-> _]]; auto|]. assert (Q := Last X B3 ltac:(lia) _ VX).
      destruct Hb as [->|[-> H1]]; [exact Q|]. destruct Q as [Q|Q]; [|right; exact Q]. cbn in Q. exfalso. assert (2 ^ (- e0) <= 2 ^ (X - 1 - e0)) by (apply Z.pow_le_mono_r; lia). lia.
Qed.

(* effort *)
Lemma follow_longest : forall s m e t u, follows s m e t u -> (longest (calm u) <= S (longest t))%nat.
Proof.
  intros s m e t. induction t as [x ts IH] using tree_ind'. intros u H. apply follows_inv in H. destruct H as (v & l & -> & _ & [(_ & _ & HF)|(-> & h & -> & _ & Hc)]).
  - rewrite !longest_eq. cbn [calm shrinks]. clear - HF IH. revert l HF. induction ts as [|t ts IHt]; intros l HF; inversion HF as [|a b c d H1 H2]; subst; cbn [map costs fold_right]; [lia|].
    inversion IH as [|? ? I1 I2]; subst. specialize (IHt I2 _ H2). specialize (I1 _ H1). fold (costs (map calm d)). fold (costs ts). lia.
  - destruct h as [z q|z]; [destruct Hc as [-> _]|]; cbn; lia.
Qed.
Lemma follow_costs : forall s m e ts us, Forall2 (follows s m e) ts us -> (costs (map calm us) <= S (costs ts))%nat.
Proof.
  intros s m e ts us H. induction H as [|t u ts us H1 H2 IH]; cbn [map costs fold_right]; [lia|]. apply follow_longest in H1. fold (costs (map calm us)). fold (costs ts). lia.
Qed.
Lemma longest_binarySearch : forall x t k, in_int64 x -> binarySearch x = Ok t -> Z.abs x <= 2 ^ Z.of_nat k -> (longest t <= S k)%nat.
Proof.
  intros x t k Hi H Hx. destruct (Z.le_ge_cases 0 x) as [P|P].
  - rewrite binarySearch_pos in H by (unfold in_int64 in Hi; lia). inversion H; subst. apply longest_bs; [unfold in_int64, INT64_MAX, UINT64_MAX in *; lia|lia].
  - rewrite binarySearch_neg in H by (unfold in_int64 in Hi; lia). inversion H; subst. rewrite longest_map. apply longest_bs; [unfold in_int64, INT64_MIN, UINT64_MAX in *; lia|lia].
Qed.
Lemma finite_range : forall ty s m e x, standard ty -> valid ty (S754_finite s m e) -> magnitude (S754_finite s m e) x -> 3 - emax ty - prec ty < x <= emax ty.
Proof.
  intros ty s m e x Hty Hv Hm. destruct (standard_ok ty Hty) as (H1 & H2 & H3). apply magnitude_digits in Hm. subst x.
  assert (Hx := finite_cf ty H1 H2 s m e Hv). cbv zeta in Hx. destruct Hx as (_ & (_ & W & _) & _ & Hx). unfold emin in *. lia.
Qed.
Lemma has_magnitude : forall s m e, exists x, magnitude (S754_finite s m e) x.
Proof.
  intros s m e. exists (e + Zpos (digits2_pos m)). cbn. assert (B := digits2_bound m). split; [lia|]. replace (e + Zpos (digits2_pos m) - 1 - e) with (Zpos (digits2_pos m) - 1) by lia.
  replace (e + Zpos (digits2_pos m) - e) with (Zpos (digits2_pos m)) by lia. exact B.
Qed.
Lemma standard_64 : forall ty x, standard ty -> 3 - emax ty - prec ty < x <= emax ty -> in_int64 x.
Proof. intros ty x [->| ->] H; cbn in H; unfold in_int64, INT64_MIN, INT64_MAX; lia. Qed.

(* nothing undefined *)
Section FtreeInd.
Variable P : ftree -> Prop.
Hypothesis Hn : forall v l, Forall P l -> P (FNode v l).
Hypothesis Hu : forall v, P (FUndef v).
Fixpoint ftree_ind' (t : ftree) : P t :=
  match t with
  | FNode v l => Hn v l ((fix go l : Forall P l := match l with [] => Forall_nil P | c :: r => Forall_cons c (ftree_ind' c) (go r) end) l)
  | FUndef v => Hu v
  end.
End FtreeInd.
Lemma calm_defined : forall t, (forall v, ~ freach t (FUndef v)) -> defined (calm t) = t.
Proof.
  intros t. induction t as [v l IH|v] using ftree_ind'; intros H; [|exfalso; apply (H v); constructor]. cbn [calm defined]. f_equal. rewrite map_map.
  rewrite <- (map_id l) at 2. apply map_ext_in. intros c Hc. rewrite Forall_forall in IH. apply IH; auto. intros w Hw. apply (H w). eapply fr_step; eauto.
Qed.
Lemma floats_ok : forall ty E (r : rst E) t r', standard ty -> floats ty r = Ok (t, r') -> exists v l, t = Node v (map calm l) /\ valid ty v /\ shrinkFloat ty v = Ok l.
Proof.
  intros ty E r t r' Hty H. destruct (C58_generated E ty r Hty) as (x & r1 & H1 & H2 & H3). unfold floats, gbind in H. rewrite H1 in H. rewrite H3 in H. 
  destruct (shrinkFloat ty (fst x)) as [l| | |] eqn:El; try discriminate. inversion H; subst. eauto.
Qed.
Lemma over_grows : forall c, grows (fun v => over c v = true).
Proof.
  intros c. split; [|discriminate]. intros v w H Hv. destruct v as [s|s| |s m e], w as [t|t| |t n f]; cbn in H; try contradiction; subst; try (destruct t; auto; discriminate).
  destruct H as [-> H]. destruct t; [discriminate|]. unfold over in *. apply Z.leb_le in Hv. apply Z.leb_le.
  enough (X : atMost (Zpos c) 0 (Zpos n) f) by (unfold atMost in X; rewrite (Z.min_comm 0 f) in X; exact X). assert (Hv' : atMost (Zpos c) 0 (Zpos m) e) by (unfold atMost; rewrite (Z.min_comm 0 e); exact Hv). 
  set (q := Z.min 0 (Z.min e f)). apply (atMost_scale _ _ _ _ q) in Hv'; try (unfold q; lia). apply (atMost_scale _ _ _ _ q) in H; try (unfold q; lia). apply (atMost_scale _ _ _ _ q); try (unfold q; lia). lia.
Qed.
