(** Proofs about type erasure: shrinkables and generators computed lazily. *)
From Coq Require Import List ZArith Bool Lia.
From Verif Require Import Base TreeModel TreeSpec TreeProof BinSearchModel RandomModel ListModel ContainerModel IntegralModel EffModel EffProof LazyModel.
From Verif Require LazyProof.
From Verif Require Import ErasureModel ErasureSpec ErasureProof.
Import ListNotations.
Local Open Scope Z_scope.

Definition rel {E A B} (R : A -> B -> Prop) (g : G E A) (g' : G E B) : Prop := forall r, outcomes R (g r) (g' r).

Lemma rel_ret : forall E A B (R : A -> B -> Prop) a b, R a b -> rel R (@gret E A a) (gret b).
Proof. intros * H r. cbn. auto. Qed.
Lemma rel_fail : forall E A B (R : A -> B -> Prop) e, rel R (@gfail E A (Throw e)) (gfail (Throw e)).
Proof. intros * r. cbn. auto. Qed.
Lemma rel_bind' : forall E A B C D (R : A -> B -> Prop) (Q : C -> D -> Prop) (g : G E A) g' k k', rel R g g' ->
  (forall r a q b, g r = Ok (a, q) -> R a b -> rel Q (k a) (k' b)) -> rel Q (gbind g k) (gbind g' k').
Proof.
  intros * H Hk r. unfold gbind. specialize (H r). destruct (g r) as [[a q]| | |] eqn:Eg; destruct (g' r) as [[b q']| | |]; cbn in *;
    try contradiction; auto.
  destruct H as [-> H]. eapply Hk; eauto.
Qed.
Lemma rel_bind : forall E A B C D (R : A -> B -> Prop) (Q : C -> D -> Prop) (g : G E A) g' k k', rel R g g' ->
  (forall a b, R a b -> rel Q (k a) (k' b)) -> rel Q (gbind g k) (gbind g' k').
Proof. intros * H Hk. eapply rel_bind'; eauto. Qed.
Lemma rel_mono : forall E A B (R Q : A -> B -> Prop) (g : G E A) g', rel R g g' -> (forall a b, R a b -> Q a b) -> rel Q g g'.
Proof.
  intros * H HQ r. specialize (H r). destruct (g r) as [[a q]| | |]; destruct (g' r) as [[b q']| | |]; cbn in *; try contradiction; auto.
  destruct H; auto.
Qed.
Lemma bind_cast : forall E A B T (a : A) (k : A -> G E B), gbind (gcast T (Obj T a)) k = k a.
Proof. intros. unfold gcast. rewrite cast_ok. reflexivity. Qed.

Section Trees.
  Context {E : engine} {A B : Type}.
  Variable R : A -> B -> Prop.

  Lemma alike_node : forall a shr t', @alike E A B R (ENode a shr) t' <->
    exists b shr', t' = ENode b shr' /\ R a b /\ rel (alike_s R) shr shr'.
  Proof.
    intros. destruct t' as [b shr']. split.
    - intros [H1 H2]. exists b, shr'. auto.
    - intros (b0 & shr0 & H & H1 & H2). injection H as -> ->. split; auto.
  Qed.
  Lemma alike_nil : forall s', @alike_s E A B R ENil s' <-> s' = ENil.
  Proof. intros [|h tl]; cbn; split; intros; try contradiction; try discriminate; auto. Qed.
  Lemma alike_cons : forall h tl s', @alike_s E A B R (ECons h tl) s' <->
    exists h' tl', s' = ECons h' tl' /\ alike R h h' /\ rel (alike_s R) tl tl'.
  Proof.
    intros. destruct s' as [|h' tl']; split; try contradiction.
    - intros (? & ? & ? & _). discriminate.
    - intros [H1 H2]. exists h', tl'. auto.
    - intros (h0 & tl0 & H & H1 & H2). injection H as -> ->. split; auto.
  Qed.
  Lemma alike_make : forall a b, R a b -> @alike E A B R (emake a) (emake b).
  Proof. intros. apply alike_node. do 2 eexists. repeat split; auto. Qed.
  Lemma alike_root : forall t t', @alike E A B R t t' -> R (eroot t) (eroot t').
  Proof. intros [a shr] [b shr'] [H _]. auto. Qed.
  Lemma alike_shrinks : forall t t', @alike E A B R t t' -> rel (alike_s R) (eshrinks t) (eshrinks t').
  Proof. intros [a shr] t' H. apply alike_node in H. destruct H as (b & shr' & -> & _ & H). auto. Qed.
End Trees.

Lemma alike_flatMap : forall E A B C D (R : A -> B -> Prop) (Q : C -> D -> Prop) (f : A -> egen E C) (f' : B -> egen E D),
  (forall a b, R a b -> rel (alike Q) (f a) (f' b)) ->
  (forall t t', alike R t t' -> rel (alike Q) (eflatMap f t) (eflatMap f' t')) /\
  (forall s s', alike_s R s s' -> rel (alike_s Q) (eflatMap_s f s) (eflatMap_s f' s')).
Proof.
  intros * Hf.
  apply (etree_ind3 E A (fun t => forall t', alike R t t' -> rel (alike Q) (eflatMap f t) (eflatMap f' t'))
                        (fun s => forall s', alike_s R s s' -> rel (alike_s Q) (eflatMap_s f s) (eflatMap_s f' s'))).
  - intros a shr IH t' H. apply alike_node in H. destruct H as (b & shr' & -> & Hab & H). cbn [eflatMap].
    eapply rel_bind; [apply Hf; eassumption|]. intros x y Hxy. apply rel_ret. apply alike_node. do 2 eexists. split; [reflexivity|].
    split; [apply alike_root; auto|]. eapply rel_bind'; [exact H|]. intros. eapply IH; eauto.
  - intros s' H. apply alike_nil in H. subst. apply rel_ret. apply alike_nil. auto.
  - intros h tl IHh IHtl s' H. apply alike_cons in H. destruct H as (h' & tl' & -> & Hh & Ht). cbn [eflatMap_s].
    eapply rel_bind; [apply IHh; eassumption|]. intros x y Hxy. apply rel_ret. apply alike_cons. do 2 eexists. repeat split; auto.
    eapply rel_bind'; [exact Ht|]. intros. eapply IHtl; eauto.
Qed.

Lemma alike_lmap : forall E A B C D (R : A -> B -> Prop) (Q : C -> D -> Prop) (f : A -> G E C) (f' : B -> G E D),
  (forall a b, R a b -> rel Q (f a) (f' b)) ->
  (forall t t', alike R t t' -> rel (alike Q) (lmap f t) (lmap f' t')) /\
  (forall s s', alike_s R s s' -> rel (alike_s Q) (lmap_s f s) (lmap_s f' s')).
Proof.
  intros * Hf.
  apply (etree_ind3 E A (fun t => forall t', alike R t t' -> rel (alike Q) (lmap f t) (lmap f' t'))
                        (fun s => forall s', alike_s R s s' -> rel (alike_s Q) (lmap_s f s) (lmap_s f' s'))).
  - intros a shr IH t' H. apply alike_node in H. destruct H as (b & shr' & -> & Hab & H). cbn [lmap].
    eapply rel_bind; [apply Hf; eassumption|]. intros x y Hxy. apply rel_ret. apply alike_node. do 2 eexists. split; [reflexivity|].
    split; auto. eapply rel_bind'; [exact H|]. intros. eapply IH; eauto.
  - intros s' H. apply alike_nil in H. subst. apply rel_ret. apply alike_nil. auto.
  - intros h tl IHh IHtl s' H. apply alike_cons in H. destruct H as (h' & tl' & -> & Hh & Ht). cbn [lmap_s].
    eapply rel_bind; [apply IHh; eassumption|]. intros x y Hxy. apply rel_ret. apply alike_cons. do 2 eexists. repeat split; auto.
    eapply rel_bind'; [exact Ht|]. intros. eapply IHtl; eauto.
Qed.

(* a pure map against one that casts *)
Lemma alike_emap : forall E A B C D (R : A -> B -> Prop) (Q : C -> D -> Prop) (f : A -> C) (f' : B -> G E D),
  (forall a b, R a b -> rel Q (gret (f a)) (f' b)) ->
  (forall t t', alike R t t' -> rel (alike Q) (gret (emap f t)) (lmap f' t')) /\
  (forall s s', alike_s R s s' -> rel (alike_s Q) (gret (emap_s f s)) (lmap_s f' s')).
Proof.
  intros * Hf.
  assert (K : forall X Y (P : X -> Y -> Prop) (x : X) (y : G E Y) Z W (P' : Z -> W -> Prop) (z : Z) k, rel P (gret x) y ->
     (forall w, P x w -> rel P' (gret z) (k w)) -> rel P' (gret z) (gbind y k)).
  { intros * H Hk r. specialize (H r). unfold gbind. destruct (y r) as [[w q]| | |]; cbn in H; try contradiction.
    destruct H as [<- H]. apply Hk; auto. }
  apply (etree_ind3 E A (fun t => forall t', alike R t t' -> rel (alike Q) (gret (emap f t)) (lmap f' t'))
                        (fun s => forall s', alike_s R s s' -> rel (alike_s Q) (gret (emap_s f s)) (lmap_s f' s'))).
  - intros a shr IH t' H. apply alike_node in H. destruct H as (b & shr' & -> & Hab & H). cbn [lmap emap].
    eapply K; [apply Hf; eassumption|]. intros y Hy. apply rel_ret. apply alike_node. do 2 eexists. split; [reflexivity|].
    split; auto. eapply rel_bind'; [exact H|]. intros. eapply IH; eauto.
  - intros s' H. apply alike_nil in H. subst. apply rel_ret. apply alike_nil. auto.
  - intros h tl IHh IHtl s' H. apply alike_cons in H. destruct H as (h' & tl' & -> & Hh & Ht). cbn [lmap_s emap_s].
    eapply K; [apply IHh; eassumption|]. intros y Hy. apply rel_ret. apply alike_cons. do 2 eexists. repeat split; auto.
    eapply rel_bind'; [exact Ht|]. intros. eapply IHtl; eauto.
Qed.

Lemma alike_andThen : forall E A B (R : A -> B -> Prop) (thn : etree E A -> G E (estream E A)) (thn' : etree E B -> G E (estream E B)),
  (forall t t', alike R t t' -> rel (alike_s R) (thn t) (thn' t')) ->
  (forall t t', alike R t t' -> rel (alike R) (eandThen thn t) (eandThen thn' t')) /\
  (forall s s', alike_s R s s' -> rel (alike_s R) (eandThen_s thn s) (eandThen_s thn' s')).
Proof.
  intros * Hf.
  apply (etree_ind3 E A (fun t => forall t', alike R t t' -> rel (alike R) (eandThen thn t) (eandThen thn' t'))
                        (fun s => forall s', alike_s R s s' -> rel (alike_s R) (eandThen_s thn s) (eandThen_s thn' s'))).
  - intros a shr IH t' H. pose proof H as H0. apply alike_node in H. destruct H as (b & shr' & -> & Hab & H). cbn [eandThen].
    eapply rel_bind; [exact H|]. intros s s' Hs. destruct s as [|h tl].
    + apply alike_nil in Hs. subst. apply rel_ret. apply alike_node. do 2 eexists. repeat split; auto.
    + apply alike_cons in Hs. destruct Hs as (h' & tl' & -> & _). apply rel_ret. apply alike_node. do 2 eexists. repeat split; auto.
      eapply rel_bind'; [exact H|]. intros. eapply IH; eauto.
  - intros s' H. apply alike_nil in H. subst. apply rel_ret. apply alike_nil. auto.
  - intros h tl IHh IHtl s' H. apply alike_cons in H. destruct H as (h' & tl' & -> & Hh & Ht). cbn [eandThen_s].
    eapply rel_bind; [apply IHh; eassumption|]. intros x y Hxy. apply rel_ret. apply alike_cons. do 2 eexists. repeat split; auto.
    eapply rel_bind'; [exact Ht|]. intros. eapply IHtl; eauto.
Qed.

Lemma alike_filterTol : forall E A B (R : A -> B -> Prop) (crit : A -> G E bool) (crit' : B -> G E bool) tol,
  (forall a b, R a b -> rel eq (crit a) (crit' b)) ->
  forall t t', alike R t t' -> rel (alike R) (lfilterTol crit tol t) (lfilterTol crit' tol t').
Proof.
  intros * Hf.
  set (Q := fun s : estream E A => forall s' n k k', alike_s R s s' -> rel (alike_s R) k k' ->
              rel (alike_s R) (lfilterTol_s crit tol s n k) (lfilterTol_s crit' tol s' n k')).
  set (P := fun t : etree E A => (forall t', alike R t t' -> rel (alike R) (lfilterTol crit tol t) (lfilterTol crit' tol t')) /\
              forall r c q, eshrinks t r = Ok (c, q) -> Q c).
  assert (H : (forall t, P t) /\ (forall s, Q s)).
  { apply etree_ind3.
    - intros a shr IH. split; [|exact IH]. intros t' H. apply alike_node in H. destruct H as (b & shr' & -> & Hab & H). cbn [lfilterTol].
      eapply rel_bind; [apply Hf; eassumption|]. intros c c' <-. destruct (negb c); [apply rel_fail|]. apply rel_ret. apply alike_node.
      do 2 eexists. repeat split; auto. eapply rel_bind'; [exact H|]. intros. apply (IH _ _ _ H0); auto. apply rel_ret. apply alike_nil. auto.
    - intros s' n k k' Hs Hk. apply alike_nil in Hs. subst. cbn. destruct (n =? 0); auto.
    - intros h tl [IHh IHc] IHtl s' n k k' Hs Hk. apply alike_cons in Hs. destruct Hs as (h' & tl' & -> & Hh & Ht).
      rewrite !LazyProof.lfilterTol_s_eq. destruct (n =? 0); auto. eapply rel_bind'; [exact Ht|]. intros r s q s'' Es Hs.
      eapply rel_bind; [apply Hf; apply alike_root; exact Hh|]. intros c c' <-. destruct c.
      + eapply rel_bind; [apply IHh; eassumption|]. intros x y Hxy. apply rel_ret. apply alike_cons. do 2 eexists. repeat split; auto.
        intros r'. apply (IHtl _ _ _ Es); auto.
      + eapply rel_bind'; [apply alike_shrinks; exact Hh|]. intros r0 c q0 c'' Ec Hc. apply (IHc _ _ _ Ec); auto.
        apply (IHtl _ _ _ Es); auto. }
  intros t t' Ht. apply H. auto.
Qed.

(* shrinkables computed at once *)
Lemma alike_lift : forall E A B X (R : A -> B -> Prop) (f : X -> A) (f' : X -> B) (t : tree X), (forall x, R (f x) (f' x)) ->
  alike R (@elift E A (map_tree f t)) (elift (map_tree f' t)).
Proof.
  intros * H. induction t as [a ts IH] using tree_ind'. rewrite !map_tree_eq, !elift_eq. cbn [root shrinks]. apply alike_node.
  do 2 eexists. split; [reflexivity|]. split; [auto|]. apply rel_ret. induction IH as [|u us Hu IH IHus]; cbn [map elist]; [apply alike_nil; auto|].
  apply alike_cons. do 2 eexists. split; [reflexivity|]. split; [auto|]. apply rel_ret. auto.
Qed.
Lemma alike_stored : forall E A T (t : tree A), alike (storedAs T) (@elift E A t) (elift (stored T t)).
Proof.
  intros. rewrite stored_map. rewrite <- (map_tree_id _ t) at 1. apply alike_lift. reflexivity.
Qed.
Lemma alike_Obj : forall E A T, (forall t : etree E A, alike (storedAs T) t (emap (Obj T) t)) /\
  (forall s : estream E A, alike_s (storedAs T) s (emap_s (Obj T) s)).
Proof.
  intros E A T. apply etree_ind3.
  - intros a shr IH. cbn [emap]. apply alike_node. do 2 eexists. split; [reflexivity|]. split; [reflexivity|]. intros r. unfold gbind, gret.
    destruct (shr r) as [[s q]| | |] eqn:Es; cbn; auto. split; auto. eapply IH; eauto.
  - apply alike_nil. auto.
  - intros h tl Hh IH. cbn [emap_s]. apply alike_cons. do 2 eexists. split; [reflexivity|]. split; [auto|]. intros r. unfold gbind, gret.
    destruct (tl r) as [[s q]| | |] eqn:Es; cbn; auto. split; auto. eapply IH; eauto.
Qed.
Lemma storing_ok : forall E A T (g : egen E A), gensAs T g (storing T g).
Proof.
  intros E A T g r. unfold storing. destruct (g r) as [[t q]| | |]; cbn; auto. split; auto. apply alike_Obj.
Qed.

(* generators *)
Lemma transformE_ok : forall E A B T U (g : egen E A) g' (f : A -> G E B), gensAs T g g' ->
  gensAs U (ltransformGen g f) (transformE T U g' f).
Proof.
  intros * Hg. unfold transformE, ltransformGen. eapply rel_bind; [exact Hg|]. intros t t' Ht.
  eapply alike_lmap; [|exact Ht]. intros a b ->. rewrite bind_cast. intros r. unfold gbind, gret.
  destruct (f a r) as [[x q]| | |]; cbn; auto. split; reflexivity.
Qed.

Lemma rel_eq : forall E A (g : G E A), rel eq g g.
Proof. intros E A g r. destruct (g r) as [[a q]| | |]; cbn; auto. Qed.

Lemma filterGenE_ok : forall E A T fuel (g : egen E A) g' (crit : A -> G E bool), gensAs T g g' ->
  gensAs T (lfilterGen fuel g crit) (filterGenE fuel T g' crit).
Proof.
  intros * Hg. induction fuel as [|fuel IH]; [intros r; exact I|]. cbn [lfilterGen filterGenE].
  eapply rel_bind; [exact Hg|]. intros t t' Ht. rewrite (alike_root _ _ _ Ht), !bind_cast.
  eapply rel_bind; [apply rel_eq|]. intros b b' <-. destruct b; [|exact IH].
  eapply alike_filterTol; [|exact Ht]. intros a b ->. rewrite bind_cast. apply rel_eq.
Qed.

(* the pair of dependency, chain, derive *)
Definition interAs {E A B} (T U : cty) (p : A * etree E B) (o : obj (A * etree E (obj B))) : Prop :=
  exists u', o = Obj (interE T U) (fst p, u') /\ alike (storedAs U) (snd p) u'.

Lemma dependentE_ok : forall E A B C D (Q : C -> obj D -> Prop) T U (g1 : egen E A) g1' (g2 : A -> egen E B) g2' fin fin',
  gensAs T g1 g1' -> (forall a, gensAs U (g2 a) (g2' a)) ->
  (forall a u u', alike (storedAs U) u u' -> rel (alike Q) (gret (fin (a, u))) (fin' (a, u'))) ->
  gens Q (dependent g1 g2 fin) (dependentE T U g1' g2' fin').
Proof.
  intros * H1 H2 Hfin. unfold dependent, dependentE.
  eapply rel_bind; [exact H1|]. intros t t' Ht.
  eapply rel_bind with (R := alike (interAs T U)).
  { eapply alike_flatMap; [|exact Ht]. intros a o ->. unfold interFunctor, interFunctorE. rewrite bind_cast.
    eapply rel_bind; [apply H2|]. intros u u' Hu. apply rel_ret. apply alike_make. exists u'. auto. }
  intros i i' Hi. eapply rel_bind with (R := alike (interAs T U)).
  { eapply alike_andThen; [|exact Hi]. intros p p' Hp. unfold secondShrinks, secondShrinksE.
    destruct (alike_root _ _ _ Hp) as (u' & -> & Hu). destruct (eroot p) as [a u]. cbn [fst snd] in *. rewrite bind_cast. cbn [fst snd].
    eapply rel_bind with (R := alike (interAs T U)).
    - eapply alike_flatMap; [|exact Hu]. intros x o ->. rewrite bind_cast. apply rel_ret. apply alike_make. exists (emake (Obj U x)).
      split; auto. apply alike_make. reflexivity.
    - intros n n' Hn. apply alike_shrinks. auto. }
  intros j j' Hj. eapply alike_flatMap; [|exact Hj]. intros [a u] o (u' & -> & Hu). rewrite bind_cast. apply Hfin. auto.
Qed.

Lemma dependencyE_ok : forall E A B T U (g1 : egen E A) g1' (g2 : A -> egen E B) g2',
  gensAs T g1 g1' -> (forall a, gensAs U (g2 a) (g2' a)) -> gensAs (CPair T U) (dependency g1 g2) (dependencyE T U g1' g2').
Proof.
  intros * H1 H2. apply dependentE_ok; auto. intros a u u' Hu. cbn [fst snd]. rewrite (alike_root _ _ _ Hu), bind_cast.
  apply rel_ret. apply alike_make. reflexivity.
Qed.
Lemma chainE_ok : forall E V T U (g1 : egen E V) g1' (g2 : V -> egen E V) g2',
  gensAs T g1 g1' -> (forall a, gensAs U (g2 a) (g2' a)) -> gensAs (tupleOfTypes [T; U]) (chain g1 g2) (chainE T U g1' g2').
Proof.
  intros * H1 H2. apply dependentE_ok; auto. intros a u u' Hu. cbn [fst snd]. rewrite (alike_root _ _ _ Hu), bind_cast.
  apply rel_ret. apply alike_make. reflexivity.
Qed.
Lemma chainMoreE_ok : forall E V ts U (g1 : egen E (list V)) g1' (g2 : list V -> egen E V) g2',
  gensAs (tupleOfTypes ts) g1 g1' -> (forall a, gensAs U (g2 a) (g2' a)) ->
  gensAs (tupleOfTypes (ts ++ [U])) (chainMore g1 g2) (chainMoreE ts U g1' g2').
Proof.
  intros * H1 H2. apply dependentE_ok; auto. intros a u u' Hu. cbn [fst snd]. rewrite (alike_root _ _ _ Hu), bind_cast.
  apply rel_ret. apply alike_make. reflexivity.
Qed.
Lemma deriveE_ok : forall E A B T U (g1 : egen E A) g1' (g2 : A -> egen E B) g2',
  gensAs T g1 g1' -> (forall a, gensAs U (g2 a) (g2' a)) -> gensAs U (derive g1 g2) (deriveE T U g1' g2').
Proof. intros * H1 H2. apply dependentE_ok; auto. intros a u u' Hu. cbn [fst snd]. apply rel_ret. auto. Qed.

Lemma sizesE_ok : forall E lo hi, gensAs CU64 (liftGen (interval TU64 lo hi)) (@sizesE E lo hi).
Proof.
  intros. unfold sizesE. intros r. unfold gbind, gret. destruct (liftGen _ r) as [[t q]| | |]; cbn; auto. split; auto. apply alike_Obj.
Qed.

Lemma aggregateE_ok : forall E A T (g1 : egen E A) g1' (g2 : A -> egen E A) g2' lo hi,
  gensAs T g1 g1' -> (forall a, gensAs T (g2 a) (g2' a)) -> gensAs T (aggregate g1 g2 lo hi) (aggregateE T g1' g2' lo hi).
Proof.
  intros * H1 H2. apply deriveE_ok; [apply sizesE_ok|]. intros n. eapply rel_bind; [exact H1|].
  induction (Z.to_nat n) as [|m IH]; intros t t' Ht; cbn [aggregateSteps aggregateStepsE]; [apply rel_ret; auto|].
  rewrite (alike_root _ _ _ Ht), bind_cast. eapply rel_bind; [apply H2|]. exact IH.
Qed.

Lemma accumulateStepsE_ok : forall E A T (g2 : A -> egen E A) g2', (forall a, gensAs T (g2 a) (g2' a)) -> forall n t t', alike (storedAs T) t t' ->
  rel (Forall2 (alike (storedAs T))) (accumulateSteps n g2 t) (accumulateStepsE T n g2' t').
Proof.
  intros * H2. induction n as [|n IH]; intros t t' Ht; cbn [accumulateSteps accumulateStepsE]; [apply rel_ret; auto|].
  rewrite (alike_root _ _ _ Ht), bind_cast. eapply rel_bind; [apply H2|]. intros u u' Hu. eapply rel_bind; [apply IH; exact Hu|].
  intros l l' Hl. apply rel_ret. auto.
Qed.

Lemma zipped : forall A B (P : A -> B -> Prop) l l', Forall2 P l l' ->
  exists L : list {p : A * B | P (fst p) (snd p)}, l = map (fun x => fst (proj1_sig x)) L /\ l' = map (fun x => snd (proj1_sig x)) L.
Proof.
  induction 1 as [|a b l l' H Hl [L [-> ->]]]; [exists []; auto|]. exists (exist _ (a, b) H :: L). auto.
Qed.

Lemma length_rename : forall A B (h : A -> B) l m,
  shrinkListLikeLength (map h l) m = result (map_tree (map h)) (shrinkListLikeLength l m).
Proof.
  intros. unfold shrinkListLikeLength. rewrite size_map, result_bind. apply bind_ext. intros range.
  apply flatMapM_rename. intros n. destruct (n =? 0); auto. rewrite slice_map, bind_result, result_bind. reflexivity.
Qed.

Definition vecAs {E A} (T : cty) (v : list (etree E A)) (o : obj (list (etree E (obj A)))) : Prop :=
  exists v', o = Obj (CVector (CShr T)) v' /\ Forall2 (alike (storedAs T)) v v'.

Lemma stored_map_tree : forall A B (f : A -> B) T t, stored T (map_tree f t) = map_tree (fun x => Obj T (f x)) t.
Proof.
  intros. induction t as [a us IH] using tree_ind'. rewrite !map_tree_eq. cbn [stored]. f_equal. rewrite map_map.
  apply map_ext_in. rewrite Forall_forall in IH. auto.
Qed.

Lemma lens_ok : forall E A T (vec : list (etree E A)) vec' m, Forall2 (alike (storedAs T)) vec vec' ->
  rel (fun t t' => alike (vecAs T) (@elift E _ t) (elift t'))
      (@gfail E _ (shrinkListLikeLength vec m)) (gfail (shrinkListLikeLengthE CVector T vec' m)).
Proof.
  intros * H. apply zipped in H. destruct H as (L & -> & ->). rewrite lengthE_ok, !length_rename.
  destruct (shrinkListLikeLength L m) as [t| | |]; cbn [result]; intros r; cbn; auto. split; auto. rewrite stored_map_tree.
  apply alike_lift. intros l. eexists. split; [reflexivity|]. induction l as [|[p Hp] l IH]; cbn; auto.
Qed.

Lemma removelast_ok : forall A B (P : A -> B -> Prop) l l', Forall2 P l l' -> Forall2 P (removelast l) (removelast l').
Proof. induction 1 as [|a b l l' H Hl IH]; cbn; auto. inversion Hl; subst; auto. Qed.

Lemma lastShrinksE_ok : forall E A T (vec : list (etree E A)) vec', Forall2 (alike (storedAs T)) vec vec' ->
  forall s s', alike_s (storedAs T) s s' -> alike_s (vecAs T) (lastShrinks vec s) (lastShrinksE T vec' s').
Proof.
  intros * H.
  assert (K : (forall t : etree E A, True) /\ forall s s', alike_s (storedAs T) s s' -> alike_s (vecAs T) (lastShrinks vec s) (lastShrinksE T vec' s')).
  2: exact (proj2 K).
  apply (etree_ind3 E A (fun _ => True) (fun s => forall s', alike_s (storedAs T) s s' -> alike_s (vecAs T) (lastShrinks vec s) (lastShrinksE T vec' s'))); auto.
  - intros s' Hs. apply alike_nil in Hs. subst. apply alike_nil. auto.
  - intros h tl _ IH s' Hs. apply alike_cons in Hs. destruct Hs as (h' & tl' & -> & Hh & Ht). cbn [lastShrinks lastShrinksE].
    apply alike_cons. do 2 eexists. split; [reflexivity|]. split.
    + apply alike_make. eexists. split; [reflexivity|]. apply Forall2_app; [apply removelast_ok; auto|auto].
    + eapply rel_bind'; [exact Ht|]. intros. apply rel_ret. eapply IH; eauto.
Qed.

Lemma shrinkLastE_ok : forall E A T (p : etree E (list (etree E A))) p', alike (vecAs T) p p' ->
  rel (alike_s (vecAs T)) (shrinkLast p) (shrinkLastE T p').
Proof.
  intros * H. unfold shrinkLast, shrinkLastE. destruct (alike_root _ _ _ H) as (v' & -> & Hv). rewrite bind_cast.
  assert (Hr : Forall2 (alike (storedAs T)) (rev (eroot p)) (rev v')).
  { clear H. induction Hv; cbn; auto. apply Forall2_app; auto. }
  destruct Hr as [|x y l l' Hxy Hl]; [apply rel_ret; apply alike_nil; auto|].
  eapply rel_bind; [apply alike_shrinks; exact Hxy|]. intros s s' Hs. apply rel_ret. apply lastShrinksE_ok; auto.
Qed.

Lemma gcastAll_ok : forall E A T (v : list (etree E A)) v', Forall2 (alike (storedAs T)) v v' ->
  rel eq (gret (map eroot v)) (gcastAll T v').
Proof.
  intros * H. induction H as [|t t' v v' Ht Hv IH]; cbn [gcastAll map]; [apply rel_ret; auto|].
  rewrite (alike_root _ _ _ Ht), bind_cast. intros r. specialize (IH r). unfold gbind. destruct (gcastAll T v' r) as [[l q]| | |]; cbn in *;
    try contradiction. destruct IH as [<- <-]. auto.
Qed.

Lemma accumulateE_ok : forall E A T (g1 : egen E A) g1' (g2 : A -> egen E A) g2' lo hi,
  gensAs T g1 g1' -> (forall a, gensAs T (g2 a) (g2' a)) ->
  gensAs (CVector T) (accumulate g1 g2 lo hi) (accumulateE T g1' g2' lo hi).
Proof.
  intros * H1 H2. apply deriveE_ok; [apply sizesE_ok|]. intros n. destruct (n =? 0).
  { apply rel_ret. apply alike_make. reflexivity. }
  eapply rel_bind; [exact H1|]. intros t t' Ht. eapply rel_bind; [apply accumulateStepsE_ok; eassumption|]. intros vec vec' Hv.
  eapply rel_bind; [apply lens_ok; eassumption|]. cbn beta. intros lens lens' Hl.
  eapply rel_bind with (R := alike (vecAs T)).
  { eapply alike_andThen; [|exact Hl]. apply shrinkLastE_ok. }
  intros u u' Hu. eapply alike_emap; [|exact Hu]. intros v o (v' & -> & Hv'). rewrite bind_cast. intros r.
  pose proof (gcastAll_ok _ _ _ _ _ Hv' r) as K. unfold gbind, gret in *. destruct (gcastAll T v' r) as [[l q]| | |]; cbn in *; try contradiction.
  destruct K as [<- <-]. split; auto. reflexivity.
Qed.

(* vectors of a generator *)
Lemma times_results : forall E A B (f : A -> B) (g : G E A) n r, times n (results f g) r = results (map f) (times n g) r.
Proof.
  intros. revert r. induction n as [|n IH]; intros r; auto. cbn [times]. unfold results at 1. unfold gbind at 1. unfold results at 2.
  unfold gbind at 2. unfold results at 1. destruct (g r) as [[a q]| | |]; cbn [result fst snd]; auto. unfold gbind at 1. rewrite IH.
  unfold results. unfold gbind. destruct (times n g q) as [[l q']| | |]; auto.
Qed.
