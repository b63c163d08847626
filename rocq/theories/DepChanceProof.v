(** Proofs about how likely the values of dependent generators are. *)
From Coq Require Import List ZArith QArith Bool Lia.
From Verif Require Import Base TreeModel TreeProof RandomModel IntegralModel ListModel ContainerModel EffModel EffProof ChanceSpec ChanceProof.
From Verif Require Import DepChanceSpec.
Import ListNotations.

(** ** Plans one after the other *)
Definition pthen {A B} (k : A -> plan B) : plan A -> plan B :=
  fix go (p : plan A) : plan B :=
    match p with
    | Ends (Ok a) => k a
    | Ends UB => Ends UB
    | Ends (Throw e) => Ends (Throw e)
    | Ends OutOfFuel => Ends OutOfFuel
    | Draws lo hi n => Draws lo hi (fun z => go (n z))
    end.
Lemma play_then : forall E A B (k : A -> plan B) (p : plan A) (r : rst E), play (pthen k p) r = gbind (play p) (fun a => play (k a)) r.
Proof.
  intros E A B k p. unfold gbind. induction p as [[a| | |]|lo hi n IH]; intros r; cbn; auto. destruct (lo <=? hi)%Z; auto.
Qed.
Lemma mean_then : forall A B (k : A -> plan B) (p : plan A) f, mean (pthen k p) f == mean p (over f (fun a => mean (k a) f)).
Proof.
  intros A B k p f. induction p as [[a| | |]|lo hi n IH]; cbn; try reflexivity. destruct (lo <=? hi)%Z; [|reflexivity]. apply average_ext. auto.
Qed.
Lemma ends_then : forall A B (P : A -> Prop) (Q : B -> Prop) k p, ends P p -> (forall a, P a -> ends Q (k a)) -> ends Q (pthen k p).
Proof.
  intros A B P Q k p H Hk. induction p as [[a| | |]|lo hi n IH]; cbn in *; try contradiction; auto. destruct H as [H1 H2]. split; auto.
Qed.
Lemma ends_mono : forall A (P Q : A -> Prop) p, ends P p -> (forall a, P a -> Q a) -> ends Q p.
Proof. intros A P Q p H Hk. induction p as [[a| | |]|lo hi n IH]; cbn in *; try contradiction; auto. destruct H as [H1 H2]. split; auto. Qed.
Lemma ends_and : forall A (P Q : A -> Prop) p, ends P p -> ends Q p -> ends (fun a => P a /\ Q a) p.
Proof. intros A P Q p H Hk. induction p as [[a| | |]|lo hi n IH]; cbn in *; try contradiction; auto. destruct H as [H1 H2], Hk. split; auto. Qed.
Lemma mean_ends : forall A (P : A -> Prop) p f g, ends P p -> (forall a, P a -> f (Ok a) == g (Ok a)) -> mean p f == mean p g.
Proof.
  intros A P p f g H Hf. induction p as [[a| | |]|lo hi n IH]; cbn in *; try contradiction; auto. destruct H as [H1 H2].
  rewrite (proj2 (Z.leb_le _ _) H1). apply average_ext. auto.
Qed.
Lemma mean_ends_const : forall A (P : A -> Prop) p f c, ends P p -> (forall a, P a -> f (Ok a) == c) -> mean p f == c.
Proof. intros A P p f c H Hf. rewrite (mean_ends A P p f (fun _ => c) H Hf). apply mean_const. Qed.

(** ** Computations and plans *)
Lemma runs_ret : forall E X Y (R : X -> Y -> Prop) x y, R x y -> runs (E := E) R (gret x) (Ends (Ok y)).
Proof. intros * H r. cbn. eauto. Qed.
Lemma play_ends : forall E A (P : A -> Prop) p (r : rst E) a q, ends P p -> play p r = Ok (a, q) -> P a.
Proof.
  intros E A P p. induction p as [[a| | |]|lo hi n IH]; intros r a' q H Hp; cbn in *; try contradiction.
  - injection Hp as <- _. auto.
  - destruct H as [H1 H2]. rewrite (proj2 (Z.leb_le _ _) H1) in Hp. eapply IH; [|exact Hp]. apply H2. apply unif_range. auto.
Qed.
Lemma runs_bind : forall E X Y Z W (R : X -> Y -> Prop) (S : Z -> W -> Prop) (P : Y -> Prop) (g : G E X) p (k : X -> G E Z) kp,
  runs R g p -> ends P p -> (forall r x y q, g r = Ok (x, q) -> R x y -> P y -> runs S (k x) (kp y)) -> runs S (gbind g k) (pthen kp p).
Proof.
  intros * H He Hk r. specialize (H r). rewrite play_then. unfold gbind. destruct (g r) as [[x q]| | |] eqn:Eg; try (rewrite H; reflexivity).
  destruct H as (y & Hp & HR). rewrite Hp. apply (Hk r x y q Eg HR). eapply play_ends; eauto.
Qed.

(** ** Shrinkables *)
Lemma acts_root : forall E A B (R : A -> B -> Prop) (t : etree E A) p, acts R t p -> R (eroot t) (proot p).
Proof. intros * H. destruct t, p. apply H. Qed.
Definition pshr {A} (p : ptree A) : plan (pstream A) := match p with PNode _ q => q end.
Lemma acts_shr : forall E A B (R : A -> B -> Prop) (t : etree E A) p, acts R t p -> runs (acts_s R) (eshrinks t) (pshr p).
Proof. intros * H. destruct t, p. apply H. Qed.
Lemma calm_root : forall A (V : A -> Prop) p, calm V p -> V (proot p).
Proof. intros * H. destruct p. apply H. Qed.
Lemma calm_shr : forall A (V : A -> Prop) p, calm V p -> ends (calm_s V) (pshr p).
Proof. intros * H. destruct p. apply H. Qed.
Definition pmake {A} (a : A) : ptree A := PNode a (Ends (Ok PNil)).
Lemma acts_make : forall E A B (R : A -> B -> Prop) a b, R a b -> acts R (emake (E := E) a) (pmake b).
Proof. intros. split; [auto|]. apply runs_ret. exact I. Qed.
Lemma calm_make : forall A (V : A -> Prop) a, V a -> calm V (pmake a).
Proof. intros. cbn. auto. Qed.

(* every possible result of a plan *)
Definition leaf {A} (P : A -> Prop) : plan A -> Prop :=
  fix go (p : plan A) : Prop := match p with Ends (Ok a) => P a | Ends _ => True | Draws _ _ k => forall z, go (k z) end.
Lemma ends_leaf : forall A (P Q : A -> Prop) p, ends P p -> leaf (fun a => P a -> Q a) p -> ends Q p.
Proof. intros A P Q p H Hk. induction p as [[a| | |]|lo hi n IH]; cbn in *; try contradiction; auto. destruct H as [H1 H2]. split; auto. Qed.
Lemma ptree_ind2 : forall A (P : ptree A -> Prop) (Q : pstream A -> Prop),
  (forall a q, leaf Q q -> P (PNode a q)) -> Q PNil -> (forall h q, P h -> leaf Q q -> Q (PCons h q)) -> (forall t, P t) /\ (forall s, Q s).
Proof.
  intros A P Q H1 H2 H3.
  assert (H : forall t, P t).
  { refine (fix F (t : ptree A) : P t := _ with G (s : pstream A) : Q s := _ for F).
    - destruct t as [a q]. apply H1. induction q as [[s| | |]|lo hi n IH]; cbn; auto.
    - destruct s as [|h q]; [exact H2|]. apply H3; [apply F|]. induction q as [[s| | |]|lo hi n IH]; cbn; auto. }
  split; [exact H|].
  refine (fix G (s : pstream A) : Q s := _). destruct s as [|h q]; [exact H2|]. apply H3; [apply H|]. induction q as [[s| | |]|lo hi n IH]; cbn; auto.
Qed.

(** flatMap *)
Fixpoint pflatMap {A B} (f : A -> plan (ptree B)) (t : ptree A) {struct t} : plan (ptree B) :=
  match t with PNode a q => pthen (fun b => Ends (Ok (PNode (proot b) (pthen (pflatMap_s f) q)))) (f a) end
with pflatMap_s {A B} (f : A -> plan (ptree B)) (s : pstream A) {struct s} : plan (pstream B) :=
  match s with
  | PNil => Ends (Ok PNil)
  | PCons h q => pthen (fun h' => Ends (Ok (PCons h' (pthen (pflatMap_s f) q)))) (pflatMap f h)
  end.
Lemma pflatMap_calm : forall A B (V : A -> Prop) (W : B -> Prop) f, (forall a, V a -> ends (calm W) (f a)) ->
  (forall t, calm V t -> ends (calm W) (pflatMap f t)) /\ (forall s, calm_s V s -> ends (calm_s W) (pflatMap_s f s)).
Proof.
  intros * Hf. apply ptree_ind2.
  - intros a q IH [Ha Hq]. cbn [pflatMap]. eapply ends_then; [apply Hf; exact Ha|]. intros b Hb. split; [apply calm_root; auto|].
    eapply ends_then with (P := fun s => ends (calm_s W) (pflatMap_s f s)); [|auto]. eapply ends_leaf; eauto.
  - intros _. exact I.
  - intros h q IHh IH [Hh Hq]. cbn [pflatMap_s]. eapply ends_then; [apply IHh; exact Hh|]. intros h' Hh'. split; [auto|].
    eapply ends_then with (P := fun s => ends (calm_s W) (pflatMap_s f s)); [|auto]. eapply ends_leaf; eauto.
Qed.
Lemma flatMap_acts : forall E A B C D (R : A -> B -> Prop) (S : C -> D -> Prop) (V : B -> Prop) (W : D -> Prop) (f : A -> egen E C) fp,
  (forall a b, R a b -> V b -> runs (acts S) (f a) (fp b)) -> (forall b, V b -> ends (calm W) (fp b)) ->
  (forall t p, acts R t p -> calm V p -> runs (acts S) (eflatMap f t) (pflatMap fp p)) /\
  (forall s p, acts_s R s p -> calm_s V p -> runs (acts_s S) (eflatMap_s f s) (pflatMap_s fp p)).
Proof.
  intros * Hf Hw.
  apply (etree_ind3 E A (fun t => forall p, acts R t p -> calm V p -> runs (acts S) (eflatMap f t) (pflatMap fp p))
                        (fun s => forall p, acts_s R s p -> calm_s V p -> runs (acts_s S) (eflatMap_s f s) (pflatMap_s fp p))).
  - intros a shr IH [b q] [Hab H] [Hb Hq]. cbn [eflatMap pflatMap]. eapply runs_bind; [apply Hf; eassumption|apply Hw; exact Hb|].
    intros _ x y _ _ Hxy _. apply runs_ret. split; [apply acts_root; auto|]. eapply runs_bind; [exact H|exact Hq|]. intros; eapply IH; eauto.
  - intros [|h q] H _; [|contradiction]. apply runs_ret. exact I.
  - intros h tl IHh IH [|h' q] H Hc; [contradiction|]. destruct H as [Hh Ht], Hc as [Hch Hct]. cbn [eflatMap_s pflatMap_s].
    eapply runs_bind; [apply IHh; eassumption| |].
    + eapply (proj1 (pflatMap_calm _ _ V W fp Hw)). exact Hch.
    + intros _ x y _ _ Hxy _. apply runs_ret. split; [auto|]. eapply runs_bind; [exact Ht|exact Hct|]. intros; eapply IH; eauto.
Qed.

(** andThen *)
Fixpoint pandThen {A} (thn : ptree A -> plan (pstream A)) (t : ptree A) {struct t} : plan (ptree A) :=
  match t with
  | PNode a q => pthen (fun s => match s with
                                 | PNil => Ends (Ok (PNode a (thn (PNode a q))))
                                 | PCons _ _ => Ends (Ok (PNode a (pthen (pandThen_s thn) q)))
                                 end) q
  end
with pandThen_s {A} (thn : ptree A -> plan (pstream A)) (s : pstream A) {struct s} : plan (pstream A) :=
  match s with
  | PNil => Ends (Ok PNil)
  | PCons h q => pthen (fun h' => Ends (Ok (PCons h' (pthen (pandThen_s thn) q)))) (pandThen thn h)
  end.
Lemma pandThen_calm : forall A (V : A -> Prop) thn, (forall t, calm V t -> ends (calm_s V) (thn t)) ->
  (forall t, calm V t -> ends (calm V) (pandThen thn t)) /\ (forall s, calm_s V s -> ends (calm_s V) (pandThen_s thn s)).
Proof.
  intros * Hf. apply ptree_ind2.
  - intros a q IH [Ha Hq]. cbn [pandThen]. eapply ends_then; [exact Hq|]. intros s Hs. destruct s as [|h tl].
    + split; [auto|]. apply Hf. split; auto.
    + split; [auto|]. eapply ends_then with (P := fun s => ends (calm_s V) (pandThen_s thn s)); [|auto]. eapply ends_leaf; eauto.
  - intros _. exact I.
  - intros h q IHh IH [Hh Hq]. cbn [pandThen_s]. eapply ends_then; [apply IHh; exact Hh|]. intros h' Hh'. split; [auto|].
    eapply ends_then with (P := fun s => ends (calm_s V) (pandThen_s thn s)); [|auto]. eapply ends_leaf; eauto.
Qed.
Lemma andThen_acts : forall E A B (R : A -> B -> Prop) (V : B -> Prop) (thn : etree E A -> G E (estream E A)) pthn,
  (forall t p, acts R t p -> calm V p -> runs (acts_s R) (thn t) (pthn p)) -> (forall p, calm V p -> ends (calm_s V) (pthn p)) ->
  (forall t p, acts R t p -> calm V p -> runs (acts R) (eandThen thn t) (pandThen pthn p)) /\
  (forall s p, acts_s R s p -> calm_s V p -> runs (acts_s R) (eandThen_s thn s) (pandThen_s pthn p)).
Proof.
  intros * Hf Hw.
  apply (etree_ind3 E A (fun t => forall p, acts R t p -> calm V p -> runs (acts R) (eandThen thn t) (pandThen pthn p))
                        (fun s => forall p, acts_s R s p -> calm_s V p -> runs (acts_s R) (eandThen_s thn s) (pandThen_s pthn p))).
  - intros a shr IH [b q] H0 H1. pose proof H0 as [Hab H]. pose proof H1 as [Hb Hq]. cbn [eandThen pandThen].
    eapply runs_bind; [exact H|exact Hq|]. intros _ s s' _ _ Hs Hs'. destruct s as [|h tl], s' as [|h' tl']; try contradiction.
    + apply runs_ret. split; [auto|]. apply Hf; auto.
    + apply runs_ret. split; [auto|]. eapply runs_bind; [exact H|exact Hq|]. intros; eapply IH; eauto.
  - intros [|h q] H _; [|contradiction]. apply runs_ret. exact I.
  - intros h tl IHh IH [|h' q] H Hc; [contradiction|]. destruct H as [Hh Ht], Hc as [Hch Hct]. cbn [eandThen_s pandThen_s].
    eapply runs_bind; [apply IHh; eassumption| |].
    + eapply (proj1 (pandThen_calm _ V pthn Hw)). exact Hch.
    + intros _ x y _ _ Hxy _. apply runs_ret. split; [auto|]. eapply runs_bind; [exact Ht|exact Hct|]. intros; eapply IH; eauto.
Qed.
Lemma pandThen_root : forall A (V : A -> Prop) thn t, calm V t -> ends (fun t' => proot t' = proot t) (pandThen thn t).
Proof.
  intros A V thn [a q] [_ Hq]. cbn [pandThen]. eapply ends_then; [exact Hq|]. intros [|h tl] _; reflexivity.
Qed.

(** ** The dependent combinators *)
Definition both {E T U} (x : T * etree E U) (y : T * ptree U) : Prop := fst x = fst y /\ acts eq (snd x) (snd y).
Definition within {T U} (V : T -> Prop) (W : T -> U -> Prop) (y : T * ptree U) : Prop := V (fst y) /\ calm (W (fst y)) (snd y).
Definition pinter {T U} (p2 : T -> plan (ptree U)) (a : T) : plan (ptree (T * ptree U)) := pthen (fun u => Ends (Ok (pmake (a, u)))) (p2 a).
Definition psecond {T U} (i : ptree (T * ptree U)) : plan (pstream (T * ptree U)) :=
  pthen pshr (pflatMap (fun x => Ends (Ok (pmake (fst (proot i), pmake x)))) (snd (proot i))).
Definition pdependent {T U W} (p1 : plan (ptree T)) (p2 : T -> plan (ptree U)) (fin : T * ptree U -> ptree W) : plan (ptree W) :=
  pthen (fun t => pthen (fun i => pthen (fun i' => pflatMap (fun y => Ends (Ok (fin y))) i') (pandThen psecond i)) (pflatMap (pinter p2) t)) p1.

Section Dependent.
  Context {T U W : Type} (V : T -> Prop) (V2 : T -> U -> Prop) (V3 : W -> Prop).
  Variables (p1 : plan (ptree T)) (p2 : T -> plan (ptree U)) (pfin : T * ptree U -> ptree W).
  Hypothesis H1c : ends (calm V) p1.
  Hypothesis H2c : forall a, V a -> ends (calm (V2 a)) (p2 a).
  Hypothesis Hfc : forall y, within V V2 y -> calm V3 (pfin y).

  Lemma inter_calm : forall a, V a -> ends (calm (within V V2)) (pinter p2 a).
  Proof. intros a Ha. eapply ends_then; [apply H2c; exact Ha|]. intros u Hu. apply calm_make. split; auto. Qed.
  Lemma second_calm : forall i, calm (within V V2) i -> ends (calm_s (within V V2)) (psecond i).
  Proof.
    intros i Hi. apply calm_root in Hi. destruct Hi as [Ha Hu]. unfold psecond. eapply ends_then.
    - eapply (proj1 (pflatMap_calm _ _ (V2 (fst (proot i))) (within V V2) _ _)). exact Hu.
    - intros n Hn. apply calm_shr. auto.
    Unshelve. intros x Hx. apply calm_make. split; [auto|]. apply calm_make. auto.
  Qed.
  Lemma fin_calm : forall y, within V V2 y -> ends (calm V3) (Ends (Ok (pfin y))).
  Proof. intros y Hy. apply Hfc. auto. Qed.
  Lemma dependent_calm : ends (calm V3) (pdependent p1 p2 pfin).
  Proof.
    eapply ends_then; [exact H1c|]. intros t Ht.
    eapply ends_then; [apply (proj1 (pflatMap_calm _ _ V (within V V2) _ inter_calm)); exact Ht|]. intros i Hi.
    eapply ends_then; [apply (proj1 (pandThen_calm _ (within V V2) _ second_calm)); exact Hi|]. intros i' Hi'.
    apply (proj1 (pflatMap_calm _ _ (within V V2) V3 _ fin_calm)). auto.
  Qed.
  Lemma dependent_mean : forall f, expect (pdependent p1 p2 pfin) f ==
    expect p1 (fun a => mean (p2 a) (fun x => match x with Ok u => f (proot (pfin (a, u))) | _ => 0 end)).
  Proof.
    intros f. unfold expect, pdependent. rewrite mean_then. eapply mean_ends; [exact H1c|]. intros [a q] Ht. unfold over. cbn [proot].
    rewrite mean_then. cbn [pflatMap]. rewrite mean_then. unfold pinter. rewrite mean_then.
    eapply mean_ends; [apply H2c; apply (proj1 Ht)|]. intros u Hu. unfold over. cbn [mean over proot pmake].
    set (i := PNode (a, u) (pthen (pflatMap_s (pinter p2)) q)).
    assert (Hi : calm (within V V2) i).
    { split; [split; [apply Ht|exact Hu]|]. eapply ends_then; [apply Ht|]. intros s Hs.
      apply (proj2 (pflatMap_calm _ _ V (within V V2) _ inter_calm)). auto. }
    rewrite mean_then. eapply mean_ends_const; [apply ends_and; [apply (pandThen_root _ (within V V2)); exact Hi|exact (proj1 (pandThen_calm _ (within V V2) _ second_calm) i Hi)]|].
    intros [y q'] [Hy Hc]. cbn [proot] in Hy. subst y. cbn [over pflatMap pthen mean proot]. reflexivity.
  Qed.
  Context {E : engine}.
  Variables (g1 : egen E T) (g2 : T -> egen E U) (fin : T * etree E U -> etree E W).
  Hypothesis H1 : runs (acts eq) g1 p1.
  Hypothesis H2 : forall a, V a -> runs (acts eq) (g2 a) (p2 a).
  Hypothesis Hf : forall x y, both x y -> acts eq (fin x) (pfin y).
  Lemma inter_acts : forall a b, a = b -> V b -> runs (acts (both (E := E))) (interFunctor g2 a) (pinter p2 b).
  Proof.
    intros a b -> Hb. eapply runs_bind; [apply H2; exact Hb|apply H2c; exact Hb|]. intros _ x y _ _ Hxy _. apply runs_ret. apply acts_make. split; auto.
  Qed.
  Lemma second_acts : forall t p, acts (both (E := E)) t p -> calm (within V V2) p -> runs (acts_s (both (E := E))) (secondShrinks t) (psecond p).
  Proof.
    intros t p Ht Hp. apply acts_root in Ht. apply calm_root in Hp. unfold secondShrinks, psecond. destruct (eroot t) as [a u], (proot p) as [b w].
    destruct Ht as [Hab Hu], Hp as [Ha Hc]. cbn [fst snd] in *. subst b.
    assert (K : forall x, V2 a x -> ends (calm (within V V2)) (Ends (Ok (pmake (a, pmake x))))).
    { intros x Hx. apply calm_make. split; [auto|]. apply calm_make. auto. }
    eapply runs_bind.
    - eapply (proj1 (flatMap_acts E _ _ _ _ eq (both (E := E)) (V2 a) (within V V2) _ _ _ K)); [exact Hu|exact Hc].
    - apply (proj1 (pflatMap_calm _ _ (V2 a) (within V V2) _ K)). exact Hc.
    - intros _ n n' _ _ Hn _. apply acts_shr. auto.
    Unshelve. intros x b <- Hx. apply runs_ret. apply acts_make. split; [reflexivity|]. apply acts_make. reflexivity.
  Qed.
  Lemma dependent_acts : runs (acts eq) (dependent g1 g2 fin) (pdependent p1 p2 pfin).
  Proof.
    eapply runs_bind; [exact H1|exact H1c|]. intros _ t t' _ _ Ht Hc.
    eapply runs_bind; [eapply (proj1 (flatMap_acts E _ _ _ _ eq (both (E := E)) V (within V V2) _ _ inter_acts inter_calm)); eassumption|
                       apply (proj1 (pflatMap_calm _ _ V (within V V2) _ inter_calm)); exact Hc|]. intros _ i i' _ _ Hi Hic.
    eapply runs_bind; [eapply (proj1 (andThen_acts E _ _ (both (E := E)) (within V V2) _ _ second_acts second_calm)); eassumption|
                       apply (proj1 (pandThen_calm _ (within V V2) _ second_calm)); exact Hic|]. intros _ j j' _ _ Hj Hjc.
    eapply (proj1 (flatMap_acts E _ _ _ _ (both (E := E)) eq (within V V2) V3 _ _ _ fin_calm)); eassumption.
    Unshelve. intros x y Hxy _. apply runs_ret. apply Hf. auto.
  Qed.
End Dependent.
