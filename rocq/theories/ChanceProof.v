(** Proofs about plans: uniqueness of the probability, sequencing, averages. *)
From Coq Require Import List ZArith QArith Lia Lqa Bool SpecFloat.
From Verif Require Import Base TreeModel RandomModel ContainerModel ChanceSpec.
Import ListNotations.
Local Open Scope Q_scope.

(** ** Averages *)
Lemma sum_ext : forall n f g, (forall i, (i < n)%nat -> f i == g i) -> sum n f == sum n g.
Proof. induction n as [|n IH]; intros f g H; cbn [sum]; [reflexivity|]. rewrite (IH f g), (H n) by (intros; try apply H; lia). reflexivity. Qed.
Lemma sum_plus : forall n f g, sum n (fun i => f i + g i) == sum n f + sum n g.
Proof. induction n as [|n IH]; intros f g; cbn [sum]; [reflexivity|]. rewrite IH. ring. Qed.
Lemma sum_scale : forall n c f, sum n (fun i => c * f i) == c * sum n f.
Proof. induction n as [|n IH]; intros c f; cbn [sum]; [ring|]. rewrite IH. ring. Qed.
Lemma sum_const : forall n c, sum n (fun _ => c) == inject_Z (Z.of_nat n) * c.
Proof.
  induction n as [|n IH]; intros c; cbn [sum]; [change (inject_Z (Z.of_nat 0)) with 0; ring|]. rewrite IH.
  rewrite Nat2Z.inj_succ. unfold Z.succ. rewrite inject_Z_plus. change (inject_Z 1) with 1. ring.
Qed.
Lemma sum_split : forall n m f, sum (n + m) f == sum n f + sum m (fun i => f (n + i)%nat).
Proof.
  intros n m f. induction m as [|m IH]; cbn [sum]; [rewrite Nat.add_0_r; ring|]. rewrite Nat.add_succ_r. cbn [sum]. rewrite IH. ring.
Qed.
Lemma sum_single : forall n k c, (k < n)%nat -> sum n (fun i => if (i =? k)%nat then c else 0) == c.
Proof.
  induction n as [|n IH]; intros k c H; [lia|]. cbn [sum]. destruct (Nat.eq_dec k n) as [->|N].
  - rewrite Nat.eqb_refl. rewrite (sum_ext n _ (fun _ => 0)).
    + rewrite sum_const. ring.
    + intros i Hi. destruct (Nat.eqb_spec i n); [lia|reflexivity].
  - rewrite IH by lia. destruct (Nat.eqb_spec n k); [lia|]. ring.
Qed.

Lemma width_pos : forall lo hi, (lo <= hi)%Z -> ~ inject_Z (hi - lo + 1) == 0.
Proof. intros lo hi H E. apply (inject_Z_injective (hi - lo + 1) 0) in E. lia. Qed.
Lemma average_ext : forall lo hi f g, (forall z, (lo <= z <= hi)%Z -> f z == g z) -> average lo hi f == average lo hi g.
Proof.
  intros lo hi f g H. unfold average. rewrite (sum_ext _ _ (fun i => g (lo + Z.of_nat i)%Z)); [reflexivity|].
  intros i Hi. apply H. lia.
Qed.
Lemma average_plus : forall lo hi f g, average lo hi (fun z => f z + g z) == average lo hi f + average lo hi g.
Proof. intros. unfold average, Qdiv. rewrite sum_plus. ring. Qed.
Lemma average_scale : forall lo hi c f, average lo hi (fun z => c * f z) == c * average lo hi f.
Proof. intros. unfold average, Qdiv. rewrite sum_scale. ring. Qed.
Lemma average_const : forall lo hi c, (lo <= hi)%Z -> average lo hi (fun _ => c) == c.
Proof.
  intros lo hi c H. unfold average. rewrite sum_const. rewrite Z2Nat.id by lia. field. apply width_pos, H.
Qed.
Lemma average_single : forall lo hi v c, (lo <= v <= hi)%Z -> average lo hi (fun z => if (z =? v)%Z then c else 0) == c / inject_Z (hi - lo + 1).
Proof.
  intros lo hi v c H. unfold average. rewrite (sum_ext _ _ (fun i => if (i =? Z.to_nat (v - lo))%nat then c else 0)).
  - rewrite sum_single by lia. reflexivity.
  - intros i Hi. destruct (Z.eqb_spec (lo + Z.of_nat i) v), (Nat.eqb_spec i (Z.to_nat (v - lo))); try reflexivity; lia.
Qed.
Lemma average_none : forall lo hi f, (lo <= hi)%Z -> (forall z, (lo <= z <= hi)%Z -> f z == 0) -> average lo hi f == 0.
Proof. intros lo hi f H Hf. rewrite (average_ext _ _ _ (fun _ => 0)) by auto. apply average_const, H. Qed.
(** The numbers up to [k] on one side, the others on the other side. *)
Lemma average_below : forall hi k a b, (0 <= k <= hi)%Z ->
  average 0 hi (fun z => if (z <=? k)%Z then a else b) == a * (inject_Z (k + 1) / inject_Z (hi + 1)) + b * (1 - inject_Z (k + 1) / inject_Z (hi + 1)).
Proof.
  intros hi k a b H. unfold average. replace (hi - 0 + 1)%Z with (hi + 1)%Z by lia.
  replace (Z.to_nat (hi + 1)) with (Z.to_nat (k + 1) + Z.to_nat (hi - k))%nat by lia. rewrite sum_split.
  rewrite (sum_ext (Z.to_nat (k + 1)) _ (fun _ => a)), (sum_ext (Z.to_nat (hi - k)) _ (fun _ => b)).
  - rewrite !sum_const, !Z2Nat.id by lia. assert (N : ~ inject_Z (hi + 1) == 0) by (pose proof (width_pos 0 hi) as W; replace (hi - 0 + 1)%Z with (hi + 1)%Z in W by lia; apply W; lia).
    replace (hi - k)%Z with ((hi + 1) + - (k + 1))%Z by lia. rewrite (inject_Z_plus (hi + 1)), inject_Z_opp. field. exact N.
  - intros i Hi. destruct (Z.leb_spec (0 + Z.of_nat (Z.to_nat (k + 1) + i)) k); [lia|reflexivity].
  - intros i Hi. destruct (Z.leb_spec (0 + Z.of_nat i) k); [reflexivity|lia].
Qed.

(** ** Means *)
Lemma mean_ext : forall A (p : plan A) f g, (forall x, f x == g x) -> mean p f == mean p g.
Proof.
  intros A p f g H. induction p as [x|lo hi k IH]; cbn [mean]; [apply H|].
  destruct (lo <=? hi)%Z; [apply average_ext; auto|apply H].
Qed.
Lemma mean_plus : forall A (p : plan A) f g, mean p (fun x => f x + g x) == mean p f + mean p g.
Proof.
  intros A p f g. induction p as [x|lo hi k IH]; cbn [mean]; [reflexivity|].
  destruct (lo <=? hi)%Z; [|reflexivity]. rewrite <- average_plus. apply average_ext. auto.
Qed.
Lemma mean_scale : forall A (p : plan A) c f, mean p (fun x => c * f x) == c * mean p f.
Proof.
  intros A p c f. induction p as [x|lo hi k IH]; cbn [mean]; [reflexivity|].
  destruct (lo <=? hi)%Z; [|reflexivity]. rewrite <- average_scale. apply average_ext. auto.
Qed.
Lemma mean_const : forall A (p : plan A) c, mean p (fun _ => c) == c.
Proof.
  intros A p c. induction p as [x|lo hi k IH]; cbn [mean]; [reflexivity|].
  destruct (Z.leb_spec lo hi); [|reflexivity]. rewrite (average_ext _ _ _ (fun _ => c)) by auto. apply average_const. auto.
Qed.

(** ** Sequencing *)
Definition over {A B} (f : res B -> Q) (k : A -> Q) (x : res A) : Q :=
  match x with Ok a => k a | UB => f UB | Throw e => f (Throw e) | OutOfFuel => f OutOfFuel end.
Fixpoint pbind {A B} (p : plan A) (k : A -> plan B) : plan B :=
  match p with
  | Ends (Ok a) => k a
  | Ends UB => Ends UB
  | Ends (Throw e) => Ends (Throw e)
  | Ends OutOfFuel => Ends OutOfFuel
  | Draws lo hi next => Draws lo hi (fun z => pbind (next z) k)
  end.
Lemma play_bind : forall E A B (p : plan A) (k : A -> plan B) (r : rst E), play (pbind p k) r = gbind (play p) (fun a => play (k a)) r.
Proof.
  intros E A B p k. induction p as [x|lo hi next IH]; intros r.
  - destruct x; reflexivity.
  - cbn [pbind play]. unfold gbind in *. cbn [play]. destruct (lo <=? hi)%Z; [apply IH|reflexivity].
Qed.
Lemma mean_bind : forall A B (p : plan A) (k : A -> plan B) f, mean (pbind p k) f == mean p (over f (fun a => mean (k a) f)).
Proof.
  intros A B p k f. induction p as [x|lo hi next IH]; [destruct x; reflexivity|].
  cbn [pbind mean]. destruct (lo <=? hi)%Z; [|reflexivity]. apply average_ext. auto.
Qed.
Definition pmap {A B} (h : A -> B) (p : plan A) : plan B := pbind p (fun a => Ends (Ok (h a))).
Lemma prob_map : forall A B (h : A -> B) p ev, prob (pmap h p) ev == prob p (fun a => ev (h a)).
Proof. intros. unfold prob, pmap. rewrite mean_bind. apply mean_ext. intros [a| | |]; reflexivity. Qed.

Lemma prob_ext : forall A (p : plan A) ev ev', (forall a, ev a = ev' a) -> prob p ev == prob p ev'.
Proof. intros A p ev ev' H. apply mean_ext. intros [a| | |]; cbn [when]; [rewrite H|..]; reflexivity. Qed.
Lemma prob_and_const : forall A (p : plan A) ev b, prob p (fun a => ev a && b)%bool == if b then prob p ev else 0.
Proof.
  intros A p ev [|]; [apply prob_ext; intros; apply andb_true_r|]. unfold prob. rewrite (mean_ext _ _ _ (fun _ => 0)); [apply mean_const|].
  intros [a| | |]; cbn [when]; try reflexivity. rewrite andb_false_r. reflexivity.
Qed.
Lemma prob_none : forall A (p : plan A) ev, (forall a, ev a = false) -> prob p ev == 0.
Proof. intros A p ev H. unfold prob. rewrite (mean_ext _ _ _ (fun _ => 0)); [apply mean_const|]. intros [a| | |]; cbn [when]; rewrite ?H; reflexivity. Qed.
Lemma prob_range : forall A (p : plan A) ev, 0 <= prob p ev <= 1.
Proof.
  intros A p ev. unfold prob. induction p as [x|lo hi next IH]; cbn [mean].
  - destruct x as [a| | |]; cbn [when]; try (destruct (ev a)); lra.
  - destruct (Z.leb_spec lo hi); [|cbn; lra].
    assert (G : forall n f, (forall i, 0 <= f i <= 1) -> 0 <= sum n f <= inject_Z (Z.of_nat n)).
    { clear. induction n as [|n IH]; intros f Hf; cbn [sum]; [change (inject_Z (Z.of_nat 0)) with 0; lra|].
      specialize (IH f Hf). specialize (Hf n). rewrite Nat2Z.inj_succ. unfold Z.succ. rewrite inject_Z_plus. change (inject_Z 1) with 1. lra. }
    unfold average. specialize (G (Z.to_nat (hi - lo + 1)) (fun i => mean (next (lo + Z.of_nat i)%Z) (when ev)) (fun i => IH _)).
    rewrite Z2Nat.id in G by lia. assert (Hp : 0 < inject_Z (hi - lo + 1)) by (change 0 with (inject_Z 0); rewrite <- Zlt_Qlt; lia).
    split; [apply Qle_shift_div_l; [exact Hp|lra]|apply Qle_shift_div_r; [exact Hp|lra]].
Qed.

(** ** Uniqueness *)
Definition choice := list (Z * Z * Z) -> Z -> Z -> Z.
Definition clamp (lo hi z : Z) : Z := Z.max lo (Z.min hi z).
Definition chosen_by (s : choice) : engine.
Proof.
  refine {| rst := list (Z * Z * Z); unif lo hi h := (clamp lo hi (s h lo hi), (lo, hi, clamp lo hi (s h lo hi)) :: h) |}.
  intros a b r H. unfold clamp. cbn [fst]. lia.
Defined.
Definition out {A} (s : choice) (p : plan A) (h : list (Z * Z * Z)) : res A := result (play (E := chosen_by s) p h).
Lemma out_draws : forall A s lo hi (k : Z -> plan A) h, (lo <= hi)%Z ->
  out s (Draws lo hi k) h = out s (k (clamp lo hi (s h lo hi))) ((lo, hi, clamp lo hi (s h lo hi)) :: h).
Proof. intros A s lo hi k h H. unfold out. cbn [play]. rewrite (proj2 (Z.leb_le lo hi) H). reflexivity. Qed.
Lemma clamp_id : forall lo hi v, (lo <= v <= hi)%Z -> clamp lo hi v = v.
Proof. unfold clamp. lia. Qed.
Lemma out_agree : forall A (p : plan A) s s' h, (forall l lo hi, s (l ++ h) lo hi = s' (l ++ h) lo hi) -> out s p h = out s' p h.
Proof.
  intros A p. induction p as [x|lo hi k IH]; intros s s' h H; [reflexivity|].
  destruct (Z.leb_spec lo hi) as [L|L].
  - rewrite !out_draws by auto. pose proof (H [] lo hi) as H0. cbn [app] in H0. rewrite <- H0. apply IH.
    intros l lo' hi'. specialize (H (l ++ [(lo, hi, clamp lo hi (s h lo hi))]) lo' hi'). rewrite <- app_assoc in H. exact H.
  - unfold out. cbn [play]. destruct (Z.leb_spec lo hi); [lia|reflexivity].
Qed.
Definition triple_eqb (x y : Z * Z * Z) : bool := let '(a, b, c) := x in let '(a', b', c') := y in ((a =? a') && (b =? b') && (c =? c'))%Z%bool.
Fixpoint hist_eqb (h h' : list (Z * Z * Z)) : bool :=
  match h, h' with [], [] => true | x :: t, y :: t' => triple_eqb x y && hist_eqb t t' | _, _ => false end.
Lemma hist_refl : forall h, hist_eqb h h = true.
Proof. induction h as [|[[a b] c] h IH]; [reflexivity|]. cbn [hist_eqb triple_eqb]. rewrite !Z.eqb_refl, IH. reflexivity. Qed.
Lemma hist_longer : forall l x h, hist_eqb (l ++ x :: h) h = false.
Proof.
  intros l x h. destruct (hist_eqb (l ++ x :: h) h) eqn:E; [|reflexivity]. exfalso.
  assert (L : forall a b, hist_eqb a b = true -> length a = length b).
  { induction a as [|y a IH]; intros [|z b] H; cbn [hist_eqb] in H; try discriminate; [reflexivity|]. apply andb_true_iff in H. cbn. rewrite (IH b); tauto. }
  apply L in E. rewrite app_length in E. cbn in E. lia.
Qed.
(** A choice answering [v] at the history [h]. *)
Definition answer (s : choice) (h : list (Z * Z * Z)) (v : Z) : choice := fun h' lo hi => if hist_eqb h' h then v else s h' lo hi.
Lemma out_constant : forall A (p : plan A) h x f, (forall s, out s p h = x) -> mean p f == f x.
Proof.
  intros A p. induction p as [y|lo hi k IH]; intros h x f H.
  - specialize (H (fun _ _ _ => 0%Z)). unfold out in H. cbn in H. cbn [mean]. destruct y; cbn in H; subst x; reflexivity.
  - cbn [mean]. destruct (Z.leb_spec lo hi) as [L|L].
    + rewrite (average_ext _ _ _ (fun _ => f x)); [apply average_const, L|]. intros v Hv. apply (IH v ((lo, hi, v) :: h) x f). intros s.
      specialize (H (answer s h v)). rewrite out_draws in H by auto.
      replace (clamp lo hi (answer s h v h lo hi)) with v in H by (unfold answer; rewrite hist_refl; symmetry; apply clamp_id; auto).
      rewrite <- H. apply out_agree. intros l lo' hi'. unfold answer. rewrite hist_longer. reflexivity.
    + specialize (H (fun _ _ _ => 0%Z)). unfold out in H. cbn [play] in H. destruct (Z.leb_spec lo hi); [lia|]. cbn in H. subst x. reflexivity.
Qed.
(** The element put on top of [h] in a longer history. *)
Definition above (h h' : list (Z * Z * Z)) : option (Z * Z * Z) := nth_error h' (length h' - S (length h)).
Lemma above_app : forall l x h, above h (l ++ x :: h) = Some x.
Proof.
  intros l x h. unfold above. rewrite app_length. cbn [length]. replace (length l + S (length h) - S (length h))%nat with (length l) by lia.
  rewrite nth_error_app2 by lia. rewrite Nat.sub_diag. reflexivity.
Qed.
Theorem mean_unique : forall A (p p' : plan A) h f, (forall s, out s p h = out s p' h) -> mean p f == mean p' f.
Proof.
  intros A p. induction p as [x|lo hi k IH]; intros p' h f H.
  - symmetry. cbn [mean]. apply (out_constant _ p' h). intros s. rewrite <- H. destruct x; reflexivity.
  - destruct (Z.leb_spec lo hi) as [L|L].
    2:{ assert (Hu : mean (Draws lo hi k) f = f UB) by (cbn [mean]; destruct (Z.leb_spec lo hi); [lia|reflexivity]). rewrite Hu. symmetry. apply (out_constant _ p' h). intros s. rewrite <- H.
        unfold out. cbn [play]. destruct (Z.leb_spec lo hi); [lia|reflexivity]. }
    destruct p' as [x|lo' hi' k'].
    { apply (out_constant _ (Draws lo hi k) h x f). intros s. rewrite H. destruct x; reflexivity. }
    destruct (Z.leb_spec lo' hi') as [L'|L'].
    2:{ assert (Hu : mean (Draws lo' hi' k') f = f UB) by (cbn [mean]; destruct (Z.leb_spec lo' hi'); [lia|reflexivity]). rewrite Hu. apply (out_constant _ (Draws lo hi k) h). intros s. rewrite H.
        unfold out. cbn [play]. destruct (Z.leb_spec lo' hi'); [lia|reflexivity]. }
    assert (D : (lo, hi) <> (lo', hi') -> mean (Draws lo hi k) f == mean (Draws lo' hi' k') f).
    { intros N. clear IH.
      assert (B : forall v v' s1 s2, (lo <= v <= hi)%Z -> (lo' <= v' <= hi')%Z -> out s1 (k v) ((lo, hi, v) :: h) = out s2 (k' v') ((lo', hi', v') :: h)).
      { intros v v' s1 s2 Hv Hv'.
        set (top := fun lo1 hi1 => ((lo1 =? lo) && (hi1 =? hi))%Z%bool).
        set (s := fun h' lo1 hi1 => if hist_eqb h' h then (if top lo1 hi1 then v else v')
                                    else match above h h' with Some (lo2, hi2, _) => if top lo2 hi2 then s1 h' lo1 hi1 else s2 h' lo1 hi1 | None => 0%Z end).
        assert (T : top lo hi = true) by (unfold top; rewrite !Z.eqb_refl; reflexivity).
        assert (T' : top lo' hi' = false) by (unfold top; destruct (Z.eqb_spec lo' lo), (Z.eqb_spec hi' hi); try reflexivity; congruence).
        specialize (H s). rewrite !out_draws in H by auto.
        replace (clamp lo hi (s h lo hi)) with v in H by (unfold s; rewrite hist_refl, T; symmetry; apply clamp_id; auto).
        replace (clamp lo' hi' (s h lo' hi')) with v' in H by (unfold s; rewrite hist_refl, T'; symmetry; apply clamp_id; auto).
        rewrite (out_agree _ (k v) s1 s), (out_agree _ (k' v') s2 s); [exact H|..]; intros l lo1 hi1; unfold s; rewrite hist_longer, above_app.
        - rewrite T'. reflexivity.
        - rewrite T. reflexivity. }
      set (x := out (fun _ _ _ => 0%Z) (k' lo') ((lo', hi', lo') :: h)).
      transitivity (f x); [|symmetry].
      - cbn [mean]. rewrite (proj2 (Z.leb_le lo hi) L). rewrite (average_ext _ _ _ (fun _ => f x)); [apply average_const, L|].
        intros v Hv. apply (out_constant _ (k v) ((lo, hi, v) :: h)). intros s1. apply B; [exact Hv|lia].
      - cbn [mean]. rewrite (proj2 (Z.leb_le lo' hi') L'). rewrite (average_ext _ _ _ (fun _ => f x)); [apply average_const, L'|].
        intros v' Hv'. apply (out_constant _ (k' v') ((lo', hi', v') :: h)). intros s2.
        transitivity (out s2 (k lo) ((lo, hi, lo) :: h)); [symmetry|]; apply B; auto; lia. }
    destruct (Z.eq_dec lo lo') as [<-|D1]; [destruct (Z.eq_dec hi hi') as [<-|D2]|].
    + cbn [mean]. rewrite (proj2 (Z.leb_le lo hi) L). apply average_ext. intros v Hv. apply (IH v (k' v) ((lo, hi, v) :: h) f). intros s.
      specialize (H (answer s h v)). rewrite !out_draws in H by auto.
      replace (clamp lo hi (answer s h v h lo hi)) with v in H by (unfold answer; rewrite hist_refl; symmetry; apply clamp_id; auto).
      rewrite (out_agree _ (k v) s (answer s h v)), (out_agree _ (k' v) s (answer s h v)); [exact H|..];
        intros l lo' hi'; unfold answer; rewrite hist_longer; reflexivity.
    + apply D. congruence.
    + apply D. congruence.
Qed.
