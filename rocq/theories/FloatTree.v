(** The shrinks of floating point values. *)
From Coq Require Import List ZArith Lia Bool SpecFloat Permutation.
From Verif Require Import Base TreeModel TreeSpec TreeProof BinSearchModel BinSearchSpec BinSearchProof PropInt BoolProof FloatModel FloatSpec FloatProof.
Import ListNotations.
Local Open Scope Z_scope.

Lemma standard_ok : forall ty, standard ty -> 2 <= prec ty /\ prec ty < emax ty /\ emax ty <= 1024.
Proof. intros ty [->| ->]; cbn; lia. Qed.

Section Type_.
Variable ty : ftype.
Hypothesis Hprec : 2 <= prec ty.
Hypothesis Hemax : prec ty < emax ty.
Notation pr := (prec ty).
Notation em := (emax ty).
Notation emn := (emin pr em).

Lemma follow : forall s M m d t, 0 <= d -> M = m * 2 ^ d -> (forall x, In x (values t) -> wf ty M x /\ emn < x) ->
  follows s m (d - pr) t (andThenU (integerfy ty) (andThen (fractionShrinks ty) (map_tree (fun e => SFldexp pr em (S754_finite s (Z.to_pos M) (- pr)) e) t))).
Proof.
  intros s M m d t Hd HM. induction t as [x ts IH] using tree_ind'. intros Hx.
  destruct (Hx x) as [W Hl]; [cbn; auto|]. assert (Hm : emn < x <= em) by (destruct W as (_ & ? & _); lia).
  assert (Ev : exactly (cf ty s M x) (sgn s m) (d - pr + x)) by (eapply cf_exactly; eauto; lia).
  cbn [map_tree]. unfold with_, make_shrinkable. cbn [root]. rewrite cf_ldexp by auto. destruct ts as [|t ts].
  - cbn [map andThen]. rewrite fraction_cf by auto. cbn [andThenU map]. rewrite integerfy_pow by auto.
    assert (Eh : exactly (cf ty s (2 ^ (pr - 1)) x) (sgn s 1) (x - 1)).
    { apply cf_exactly with (d := pr - 1); auto; try lia. apply wf_half; auto. }
    destruct (Z.leb_spec x 31); apply fo_leaf; auto. lia.
  - cbn [map andThen andThenU]. apply fo_node; auto. change (Forall2 (follows s m (d - pr)) (t :: ts) (map (andThenU (integerfy ty)) (map (andThen (fractionShrinks ty)) (map (map_tree (fun e => SFldexp pr em (S754_finite s (Z.to_pos M) (- pr)) e)) (t :: ts))))).
    assert (Hin : forall c, In c (t :: ts) -> forall y, In y (values c) -> In y (values (Node x (t :: ts)))).
    { intros c Hc y Hy. cbn [values]. right. apply in_flat_map. eauto. }
    revert IH Hx Hin. generalize (t :: ts). intros l IH Hx Hin. assert (H : forall c, In c l -> forall y, In y (values c) -> wf ty M y /\ emn < y) by (intros; eapply Hx, Hin; eauto).
    clear Hin Hx. induction l as [|c l IHl]; cbn [map]; constructor.
    + inversion IH; subst. apply H2. intros y Hy. apply (H c); cbn; auto.
    + inversion IH; subst. apply IHl; auto. intros c' Hc'. apply H; cbn; auto.
Qed.

Lemma shrinkFloat_tree : forall s m e, em <= 1024 -> valid ty (S754_finite s m e) -> let x := e + Zpos (digits2_pos m) in
  exists t l, binarySearch x = Ok t /\ shrinkFloat ty (S754_finite s m e) = Ok (FNode (S754_zero false) [] :: l) /\ Forall2 (follows s (Zpos m) (e - x)) (shrinks t) l.
Proof.
  intros s m e He Hv x. destruct (finite_cf ty Hprec Hemax s m e Hv) as (Hd & W & E & Hx). fold x in W, E, Hx. remember (pr - Zpos (digits2_pos m)) as d.
  assert (Hi : in_int64 x) by (destruct W as (_ & ? & _); unfold in_int64, INT64_MIN, INT64_MAX, emin in *; cbn; lia).
  destruct (C06_signed_shrink x Hi) as (t & Ht & Hr & _). destruct (C06_signed_shrink_once x t Hi Ht) as [_ Hin]. destruct t as [x0 ts]. cbn [root] in Hr. subst x0. exists (Node x ts).
  unfold shrinkFloat. rewrite E, cf_frexp by auto. rewrite Ht. cbn [bind]. eexists. split; [reflexivity|].
  cbn [map_tree with_ root shrinks make_shrinkable app andThen map andThenU]. split; [reflexivity|].
  assert (Hv' : forall c, In c ts -> forall y, In y (values c) -> wf ty (Zpos m * 2 ^ d) y /\ emn < y).
  { intros c Hc y Hy. assert (Hy' : In y (values (Node x ts))) by (cbn [values]; right; apply in_flat_map; eauto). apply Hin in Hy'. split; [eapply wf_toward; eauto; lia|unfold emin in *; lia]. }
  replace (e - x) with (d - pr) by (unfold x; lia). clear -Hv' Hd Hprec Hemax. induction ts as [|c ts IH]; cbn [map]; constructor.
  - apply follow; auto. intros y Hy. apply (Hv' c); cbn; auto.
  - apply IH. intros c' Hc'. apply Hv'. cbn; auto.
Qed.
Lemma magnitude_digits : forall s m e x, magnitude (S754_finite s m e) x -> x = e + Zpos (digits2_pos m).
Proof. intros s m e x [H1 H2]. rewrite (digits2_unique m (x - e)); [lia|lia|]. replace (x - e - 1) with (x - 1 - e) by lia. auto. Qed.
Lemma largest_valid : forall s, valid ty (largest ty s) /\ magnitude (largest ty s) em.
Proof.
  intros s. assert (E : exists m, largest ty s = S754_finite s m (em - pr) /\ Zpos m = 2 ^ pr - 1).
  { unfold largest, SFmax_float. assert (Zpos (shift_pos (Z.to_pos pr) 1) = 2 ^ pr) by (rewrite shift_mul, Z2Pos.id by lia; lia).
    assert (2 ^ 2 <= 2 ^ pr) by (apply Z.pow_le_mono_r; lia). change (2 ^ 2) with 4 in H0. eexists. split; [destruct s; cbn [SFopp negb]; reflexivity|]. lia. }
  destruct E as (m & -> & Em). assert (P : 2 ^ pr = 2 * 2 ^ (pr - 1)) by (rewrite <- Z.pow_succ_r by lia; f_equal; lia). assert (0 < 2 ^ (pr - 1)) by (apply Z.pow_pos_nonneg; lia).
  assert (M : magnitude (S754_finite s m (em - pr)) em).
  { cbn. replace (em - 1 - (em - pr)) with (pr - 1) by lia. replace (em - (em - pr)) with pr by lia. lia. }
  split; auto. apply valid_iff; auto. rewrite Z.add_comm, <- (magnitude_digits s m (em - pr) em M). unfold fexp, emin. lia.
Qed.
End Type_.

(** ** Consequences of following *)

Lemma follows_inv : forall s m e x ts u, follows s m e (Node x ts) u -> exists v l, u = FNode v l /\ exactly v (sgn s m) (e + x) /\
  ((ts <> [] /\ l <> [] /\ Forall2 (follows s m e) ts l) \/
   (ts = [] /\ exists h, l = [h] /\ exactly (fvalue h) (sgn s 1) (x - 1) /\ match h with FNode _ l => l = [] /\ x <= 31 | FUndef _ => 32 <= x end)).
Proof.
  intros s m e x ts u H. inversion H; subst.
  - exists v, l. split; auto. split; auto. left. split; [discriminate|]. split; auto. intros ->. match goal with HF : Forall2 _ _ [] |- _ => inversion HF end.
  - exists v, [h]. split; auto. split; auto. right. split; eauto.
Qed.
(** Everything below is the same fraction with some exponent of the tree, or a power of two. *)
Lemma follows_reach : forall s m e t u, follows s m e t u -> forall w, freach u w ->
  (exists x v l, w = FNode v l /\ l <> [] /\ In x (values t) /\ exactly v (sgn s m) (e + x)) \/
  (exists x, In x (values t) /\ exactly (fvalue w) (sgn s 1) (x - 1) /\ match w with FNode _ l => l = [] /\ x <= 31 | FUndef _ => 32 <= x end).
Proof.
  intros s m e t. induction t as [x ts IH] using tree_ind'. intros u H w Hr. apply follows_inv in H. destruct H as (v & l & -> & Hv & H).
  assert (Hl : l <> []) by (destruct H as [(_ & ? & _)|(_ & h & -> & _)]; [auto|discriminate]).
  inversion Hr as [|v0 l0 c t0 Hin Hcw]; subst; [left; exists x, v, l; split; auto; split; auto; split; auto; cbn; auto|]. destruct H as [(_ & _ & HF)|(-> & h & -> & Hh & Hc)].
  - destruct (Forall2_In_r _ _ _ _ _ _ HF Hin) as (y & Hy & Hf). rewrite Forall_forall in IH.
    destruct (IH y Hy _ Hf _ Hcw) as [(x' & v' & l' & E1 & E2 & E3 & E4)|(x' & E1 & E2)].
    + left. exists x', v', l'. split; auto. split; auto. split; auto. cbn [values]. right. apply in_flat_map. eauto.
    + right. exists x'. split; auto. cbn [values]. right. apply in_flat_map. eauto.
  - destruct Hin as [<-|[]]. right. exists x. assert (w = h) by (destruct h as [z q|z]; [destruct Hc as [-> _]|]; inversion Hcw as [|v1 l1 c1 t1 Hi1 Hc1]; subst; auto; destruct Hi1). subst w. cbn. auto.
Qed.
Lemma follows_depth : forall s m e t u, follows s m e t u -> (fdepth u <= S (tdepth t))%nat.
Proof.
  intros s m e t. induction t as [x ts IH] using tree_ind'. intros u H. apply follows_inv in H. destruct H as (v & l & -> & _ & [(_ & _ & HF)|(-> & h & -> & _ & Hc)]).
  - cbn [fdepth tdepth]. clear -HF IH. assert (H : (list_max (map (fun s => S (fdepth s)) l) <= S (list_max (map (fun s => S (tdepth s)) ts)))%nat); auto.
    revert l HF. induction ts as [|t ts IHt]; intros l HF; inversion HF; subst; [cbn; lia|]. inversion IH; subst. specialize (IHt H4 _ H3). specialize (H2 _ H1). cbn [map] in *. unfold list_max in *. cbn [fold_right] in *. lia.
  - cbn. destruct h as [z q|z]; [destruct Hc as [-> _]|]; cbn; lia.
Qed.
(** The exponent just below the first is never shrunk further. *)
Lemma gp_last : forall f min max, 0 <= min -> min + 2 <= max -> max - min <= 2 ^ Z.of_nat f -> In (Node (max - 1) []) (gp (S f) min max).
Proof.
  induction f as [|f IH]; intros min max H0 H1 H2; [cbn in H2; lia|]. rewrite gp_S. destruct (Z.geb_spec (min + 1) max); [lia|]. destruct (Z.geb_spec (min + 2) max).
  - assert (max = min + 2) by lia. subst max. left. f_equal. replace (min + (min + 2)) with ((min + 1) * 2) by lia. rewrite Z.div_mul; lia.
  - right. apply IH; rewrite ?pow_S in H2; Z.div_mod_to_equations; lia.
Qed.
Lemma search_last : forall x t, 2 <= x <= INT64_MAX -> binarySearch x = Ok t -> In (Node (x - 1) []) (shrinks t).
Proof.
  intros x t Hx Ht. unfold binarySearch in Ht. destruct (Z.eqb_spec x 0); [lia|]. rewrite Z.gtb_ltb in Ht. destruct (Z.ltb_spec 0 x); [|lia].
  rewrite genpos_bs in Ht by lia. cbn [bind] in Ht. inversion Ht; subst. cbn [with_ shrinks make_shrinkable app root]. right. apply (gp_last 64); try lia. unfold INT64_MAX in Hx. cbn in *. lia.
Qed.
