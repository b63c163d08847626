(** Proofs about when and how often callbacks are called. *)
From Coq Require Import List ZArith Bool Lia.
From Verif Require Import Base TreeModel TreeSpec TreeProof RandomModel EffModel EffProof LazyModel LazySpec.
Import ListNotations.

Lemma denotes_node : forall E A (t : etree E A) a us,
  denotes t (Node a us) <-> eroot t = a /\ denotes_g us (eshrinks t).
Proof.
  intros E A t a us.
  assert (Hgo : forall us (s : estream E A),
    (fix go (us : list (tree A)) (s : estream E A) : Prop :=
       match us with
       | [] => s = ENil
       | v :: vs => exists h tl, s = ECons h tl /\ denotes h v /\ forall r, exists s', tl r = Ok (s', r) /\ go vs s'
       end) us s <-> denotes_s us s).
  { induction us0 as [|v vs IH]; intros s; [reflexivity|]. cbn [denotes_s]. split; intros (h & tl & -> & Hh & Ht).
    - exists h, tl. repeat split; auto. intros r. destruct (Ht r) as [s' [H1 H2]]. exists s'. split; auto. apply IH; auto.
    - exists h, tl. repeat split; auto. intros r. destruct (Ht r) as [s' [H1 H2]]. exists s'. split; auto. apply IH; auto. }
  cbn [denotes]. unfold denotes_g. split; intros [H1 H2]; split; auto; intros r; destruct (H2 r) as [s [H3 H4]]; exists s;
    split; auto; apply Hgo; auto.
Qed.

Lemma denotes_root : forall E A (t : etree E A) u, denotes t u -> eroot t = root u.
Proof. intros E A t [a us] H. apply denotes_node in H. tauto. Qed.

Lemma denotes_shrinks : forall E A (t : etree E A) u, denotes t u -> denotes_g (shrinks u) (eshrinks t).
Proof. intros E A t [a us] H. apply denotes_node in H. tauto. Qed.

Lemma denotes_enode : forall E A a (shr : G E (estream E A)) us, denotes_g us shr -> denotes (ENode a shr) (Node a us).
Proof. intros. apply denotes_node. auto. Qed.

Lemma denotes_cons : forall E A (h : etree E A) tl v vs, denotes h v -> denotes_g vs tl -> denotes_s (v :: vs) (ECons h tl).
Proof. intros. cbn. exists h, tl. auto. Qed.

Lemma denotes_g_ret : forall E A us (s : estream E A), denotes_s us s -> denotes_g us (gret s).
Proof. intros E A us s H r. exists s. auto. Qed.

Lemma denotes_g_bind : forall E A B us vs (g : G E (estream E A)) (k : estream E A -> G E (estream E B)),
  denotes_g us g -> (forall s, denotes_s us s -> denotes_g vs (k s)) -> denotes_g vs (gbind g k).
Proof. intros E A B us vs g k Hg Hk r. destruct (Hg r) as [s [H1 H2]]. unfold gbind. rewrite H1. apply Hk; auto. Qed.

(* the tree [elift] makes *)
Lemma denotes_elift : forall E A (u : tree A), denotes (@elift E A u) u.
Proof.
  intros E A. induction u as [a us IH] using tree_ind'. apply denotes_node. split; [reflexivity|]. cbn [elift eshrinks].
  apply denotes_g_ret. induction IH as [|v vs Hv _ IH]; [reflexivity|]. apply denotes_cons; auto. apply denotes_g_ret; auto.
Qed.

(* one scheme for map, flatMap and mapShrinkable *)
Lemma lmap_denotes : forall E A B (f : A -> B) u (t : etree E A), denotes t u ->
  yields (lmap (fun a => gret (f a)) t) (map_tree f u).
Proof.
  intros E A B f. induction u as [a us IH] using tree_ind'. intros t Ht r. destruct t as [a' shr].
  apply denotes_node in Ht. destruct Ht as [<- Hs]. cbn [eroot eshrinks] in Hs |- *. cbn. eexists. split; [reflexivity|].
  apply denotes_enode. eapply denotes_g_bind; [exact Hs|]. clear Hs r. induction IH as [|v vs Hv _ IH]; intros s Hs.
  - cbn in Hs. subst s. apply denotes_g_ret. reflexivity.
  - destruct Hs as (h & tl & -> & Hh & Htl). intros r. destruct (Hv h Hh r) as [h' [E1 D1]]. cbn [lmap_s]. unfold gbind at 1.
    rewrite E1. eexists. split; [reflexivity|]. cbn [map]. apply denotes_cons; auto. eapply denotes_g_bind; [exact Htl|]. exact IH.
Qed.

Lemma eflatMap_denotes : forall E A B (f : A -> egen E B) (fp : A -> tree B), (forall a, yields (f a) (fp a)) ->
  forall u (t : etree E A), denotes t u -> yields (eflatMap f t) (flatMap_tree fp u).
Proof.
  intros E A B f fp Hf. induction u as [a us IH] using tree_ind'. intros t Ht r. destruct t as [a' shr].
  apply denotes_node in Ht. destruct Ht as [<- Hs]. cbn [eroot eshrinks] in Hs |- *. destruct (Hf a' r) as [b [E0 D0]].
  cbn [eflatMap]. unfold gbind at 1. rewrite E0. eexists. split; [reflexivity|]. cbn [flatMap_tree]. unfold with_.
  rewrite (denotes_root _ _ _ _ D0). apply denotes_enode. eapply denotes_g_bind; [exact Hs|]. clear Hs r E0.
  induction IH as [|v vs Hv _ IH]; intros s Hs.
  - cbn in Hs. subst s. apply denotes_g_ret. reflexivity.
  - destruct Hs as (h & tl & -> & Hh & Htl). intros r. destruct (Hv h Hh r) as [h' [E1 D1]]. cbn [eflatMap_s]. unfold gbind at 1.
    rewrite E1. eexists. split; [reflexivity|]. cbn [map]. apply denotes_cons; auto. eapply denotes_g_bind; [exact Htl|]. exact IH.
Qed.

Lemma lmapShrinkable_denotes : forall E A B (f : etree E A -> G E (etree E B)) (fp : tree A -> tree B),
  (forall t u, denotes t u -> yields (f t) (fp u)) ->
  forall u (t : etree E A), denotes t u -> yields (lmapShrinkable f t) (mapShrinkable fp u).
Proof.
  intros E A B f fp Hf. induction u as [a us IH] using tree_ind'. intros t Ht r. destruct (Hf t _ Ht r) as [b [E0 D0]].
  destruct t as [a' shr].
  apply denotes_node in Ht. destruct Ht as [<- Hs]. cbn [eroot eshrinks] in Hs, D0 |- *.
  cbn [lmapShrinkable]. unfold gbind at 1. rewrite E0. eexists. split; [reflexivity|]. cbn [mapShrinkable]. unfold with_.
  rewrite (denotes_root _ _ _ _ D0). apply denotes_enode. eapply denotes_g_bind; [exact Hs|]. clear Hs r E0 D0.
  induction IH as [|v vs Hv _ IH]; intros s Hs.
  - cbn in Hs. subst s. apply denotes_g_ret. reflexivity.
  - destruct Hs as (h & tl & -> & Hh & Htl). intros r. destruct (Hv h Hh r) as [h' [E1 D1]]. cbn [lmapShrinkable_s]. unfold gbind at 1.
    rewrite E1. eexists. split; [reflexivity|]. cbn [map]. apply denotes_cons; auto. eapply denotes_g_bind; [exact Htl|]. exact IH.
Qed.

Lemma lappend_denotes : forall E A us vs (s o : estream E A), denotes_s us s -> denotes_s vs o -> denotes_s (us ++ vs) (lappend s o).
Proof.
  intros E A us vs. induction us as [|u us IH]; intros s o Hs Ho.
  - cbn in Hs. subst s. auto.
  - destruct Hs as (h & tl & -> & Hh & Htl). cbn [lappend app]. apply denotes_cons; auto.
    eapply denotes_g_bind; [exact Htl|]. intros s' Hs'. apply denotes_g_ret. apply IH; auto.
Qed.

Lemma lconcat_denotes : forall E A (thn : etree E A -> G E (estream E A)) (thp : tree A -> list (tree A)),
  (forall t u, denotes t u -> denotes_g (thp u) (thn t)) ->
  forall u (t : etree E A), denotes t u -> denotes (lconcat thn t) (concat_tree thp u).
Proof.
  intros E A thn thp Hf. induction u as [a us IH] using tree_ind'. intros t Ht. pose proof (Hf t _ Ht) as H0.
  destruct t as [a' shr]. apply denotes_node in Ht. destruct Ht as [<- Hs]. cbn [eroot eshrinks lconcat] in Hs, H0 |- *.
  apply denotes_enode. eapply denotes_g_bind; [exact Hs|]. intros s D. eapply denotes_g_bind; [exact H0|]. intros o Do.
  apply denotes_g_ret. apply lappend_denotes; auto. clear Hs H0 Do. revert s D.
  induction IH as [|v vs Hv _ IH]; intros s Hs.
  - cbn in Hs. subst s. reflexivity.
  - destruct Hs as (h & tl & -> & Hh & Htl). cbn [lconcat_s map]. apply denotes_cons; auto. eapply denotes_g_bind; [exact Htl|].
    intros s' Hs'. apply denotes_g_ret. auto.
Qed.

Lemma concatStatic_concat : forall A (ts : list (tree A)) u, concatStatic ts u = concat_tree (fun _ => ts) u.
Proof.
  intros A ts. induction u as [a us IH] using tree_ind'. cbn. do 2 f_equal. apply map_ext_Forall. auto.
Qed.

Lemma eandThen_denotes : forall E A (thn : etree E A -> G E (estream E A)) (thp : tree A -> list (tree A)),
  (forall t u, denotes t u -> denotes_g (thp u) (thn t)) ->
  forall u (t : etree E A), denotes t u -> yields (eandThen thn t) (andThen thp u).
Proof.
  intros E A thn thp Hf. induction u as [a us IH] using tree_ind'. intros t Ht r. pose proof (Hf t _ Ht) as H0.
  destruct t as [a' shr]. apply denotes_node in Ht. destruct Ht as [<- Hs]. cbn [eroot eshrinks eandThen] in Hs, H0 |- *.
  destruct (Hs r) as [s [E1 D1]]. unfold gbind at 1. rewrite E1. destruct us as [|u0 us].
  - cbn in D1. subst s. eexists. split; [reflexivity|]. cbn [andThen]. apply denotes_enode. exact H0.
  - destruct D1 as (h0 & tl0 & -> & _). eexists. split; [reflexivity|]. cbn [andThen]. apply denotes_enode.
    eapply denotes_g_bind; [exact Hs|]. clear Hs E1 H0 r. remember (u0 :: us) as ws. clear Heqws u0 us h0 tl0.
    induction IH as [|v vs Hv _ IH]; intros s Hs.
    + cbn in Hs. subst s. apply denotes_g_ret. reflexivity.
    + destruct Hs as (h & tl & -> & Hh & Htl). intros r. destruct (Hv h Hh r) as [h' [E1 D1]]. cbn [eandThen_s]. unfold gbind at 1.
      rewrite E1. eexists. split; [reflexivity|]. cbn [map]. apply denotes_cons; auto. eapply denotes_g_bind; [exact Htl|]. exact IH.
Qed.

Lemma andThenStatic_andThen : forall A (ts : list (tree A)) u, andThenStatic ts u = andThen (fun _ => ts) u.
Proof.
  intros A ts. induction u as [a us IH] using tree_ind'. cbn. destruct us; auto. f_equal. apply map_ext_Forall. auto.
Qed.

Lemma ltake_denotes : forall E A n u (t : etree E A), denotes t u -> denotes (ltake n t) (take_tree n u).
Proof.
  intros E A n. induction u as [a us IH] using tree_ind'. intros t Ht.
  destruct t as [a' shr]. apply denotes_node in Ht. destruct Ht as [<- Hs]. cbn [eroot eshrinks ltake take_tree] in Hs |- *.
  apply denotes_enode. eapply denotes_g_bind; [exact Hs|]. intros s D. apply denotes_g_ret. clear Hs. revert s D.
  generalize n at 2 4. induction IH as [|v vs Hv _ IH]; intros k s Hs.
  - cbn in Hs. subst s. reflexivity.
  - destruct Hs as (h & tl & -> & Hh & Htl). cbn [ltake_s]. destruct (k =? 0)%Z; [reflexivity|].
    apply denotes_cons; auto. eapply denotes_g_bind; [exact Htl|]. intros s' Hs'. apply denotes_g_ret. auto.
Qed.

(* filtering *)
Lemma filtered_unique : forall A (crit : A -> bool) tol t1 t t2, filtered crit tol t t1 -> filtered crit tol t t2 -> t1 = t2.
Proof.
  intros A crit tol. induction t1 as [a1 ts1 IH] using tree_ind'. intros t t2 H1 H2.
  inversion H1 as [a ts ts' Hc HF]; subst. inversion H2 as [b bs bs' _ HG]; subst. f_equal.
  clear H1 H2 Hc. revert bs' HG. revert IH. induction HF as [|x y l l' Hxy _ IHF]; intros IH bs' HG; inversion HG as [|? z ? zs Hz HG']; subst; auto.
  inversion IH as [|? ? Hy IH']; subst. f_equal; [eapply Hy; eauto|]. apply IHF; auto.
Qed.

Lemma stake_neg : forall A (l : list A) n, (n < 0)%Z -> stake n l = l.
Proof.
  induction l as [|x l IH]; intros n Hn; [reflexivity|]. cbn. destruct (n =? 0)%Z eqn:E; [apply Z.eqb_eq in E; lia|].
  rewrite IH by lia. reflexivity.
Qed.

Lemma lfilterTol_s_eq : forall E A (crit : A -> G E bool) tol (s : estream E A) n k,
  lfilterTol_s crit tol s n k =
  if (n =? 0)%Z then k else
  match s with
  | ENil => k
  | ECons h tl =>
      gbind tl (fun s' =>
      gbind (crit (eroot h)) (fun b =>
        if b then gbind (lfilterTol crit tol h) (fun h' => gret (ECons h' (lfilterTol_s crit tol s' (n - 1) k)))
        else gbind (eshrinks h) (fun c => lfilterTol_s crit tol c tol (lfilterTol_s crit tol s' (n - 1) k))))
  end.
Proof. intros. destruct s as [|[a shr] tl]; reflexivity. Qed.

Lemma Forall2_app_split : forall A B (P : A -> B -> Prop) l1 l2 l, Forall2 P (l1 ++ l2) l ->
  exists m1 m2, l = m1 ++ m2 /\ Forall2 P l1 m1 /\ Forall2 P l2 m2.
Proof. intros A B P l1 l2 l H. apply Forall2_app_inv_l in H. destruct H as (m1 & m2 & H1 & H2 & ->). eauto. Qed.

Section FilterPure.
  Context {E : engine} {A : Type} (crit : A -> bool) (tol : Z).
  Notation pcrit := (fun a => @gret E bool (crit a)).

  Definition tolOk (u : tree A) : Prop := forall (t : etree E A) u', denotes t u -> filtered crit tol u u' ->
    yields (lfilterTol pcrit tol t) u'.
  Definition tolOks (us : list (tree A)) : Prop := forall (s : estream E A) n k K us', denotes_s us s -> denotes_g K k ->
    Forall2 (filtered crit tol) (flat_map (survivors crit tol) (stake n us)) us' ->
    denotes_g (us' ++ K) (lfilterTol_s pcrit tol s n k).

  Lemma tolOks_all : forall us, Forall (fun u => tolOk u /\ tolOks (shrinks u)) us -> tolOks us.
  Proof.
    induction 1 as [|v vs [Hv Hvs] _ IH]; intros s n k K us' Hs Hk HF; rewrite lfilterTol_s_eq; cbn [stake] in HF.
    - cbn in Hs, HF. subst s. inversion HF. destruct (n =? 0)%Z; auto.
    - destruct (n =? 0)%Z. { cbn in HF. inversion HF. auto. }
      destruct Hs as (h & tl & -> & Hh & Htl). cbn [flat_map] in HF.
      eapply denotes_g_bind; [exact Htl|]. intros s' Hs'. rewrite (denotes_root _ _ _ _ Hh).
      destruct (crit (root v)) eqn:Ec.
      + rewrite survivors_accept in HF by auto. cbn [app] in HF. inversion HF as [|? v' ? vs' Fv Fvs]; subst.
        intros r. unfold gbind at 1, gret at 1. destruct (Hv h v' Hh Fv r) as [h' [E1 D1]]. unfold gbind. rewrite E1.
        eexists. split; [reflexivity|]. cbn [app]. apply denotes_cons; auto.
      + rewrite survivors_reject in HF by auto. apply Forall2_app_split in HF. destruct HF as (m1 & m2 & -> & F1 & F2).
        rewrite <- app_assoc. intros r. unfold gbind at 1, gret at 1. revert r.
        eapply denotes_g_bind; [apply denotes_shrinks; exact Hh|]. intros c Hc. eapply Hvs; eauto.
  Qed.

  Lemma tolOk_all : forall u, tolOk u /\ tolOks (shrinks u).
  Proof.
    induction u as [a us IH] using tree_ind'. apply tolOks_all in IH. split; [|exact IH].
    intros t u' Ht HF. inversion HF as [? ? us' Hc F]; subst. destruct t as [a' shr]. apply denotes_node in Ht.
    destruct Ht as [Ea Hs]. cbn [eroot eshrinks] in Ea, Hs. subst a'. intros r. cbn [lfilterTol]. unfold gbind at 1, gret at 1. rewrite Hc.
    cbn [negb]. eexists. split; [reflexivity|]. apply denotes_enode. eapply denotes_g_bind; [exact Hs|]. intros s Ds.
    rewrite <- (app_nil_r us'). apply IH; auto.
    - apply denotes_g_ret. reflexivity.
    - rewrite stake_neg by lia. auto.
  Qed.

  Definition filOks (us : list (tree A)) : Prop := forall (s : estream E A) us', denotes_s us s -> fstream_of crit us = Ok us' ->
    denotes_g us' (lfilter_s pcrit s).

  Lemma filter_denotes : forall u (t : etree E A) u', denotes t u -> filter_tree crit u = Ok u' -> yields (lfilter pcrit t) u'.
  Proof.
    induction u as [a us IH] using tree_ind'. intros t u' Ht HF. rewrite filter_tree_eq in HF.
    destruct (crit a) eqn:Hc; [|discriminate]. cbn [negb] in HF. destruct (fstream_of crit us) as [us'| | |] eqn:F; try discriminate.
    cbn [bind] in HF. inversion HF; subst u'. clear HF. destruct t as [a' shr]. apply denotes_node in Ht.
    destruct Ht as [Ea Hs]. cbn [eroot eshrinks] in Ea, Hs. subst a'. intros r. cbn [lfilter]. unfold gbind at 1, gret at 1. rewrite Hc.
    cbn [negb]. eexists. split; [reflexivity|]. apply denotes_enode. eapply denotes_g_bind; [exact Hs|]. clear Hs r Hc. revert us' F.
    induction IH as [|v vs Hv _ IH]; intros us' F s Hs.
    - cbn in Hs, F. subst s. inversion F. apply denotes_g_ret. reflexivity.
    - destruct Hs as (h & tl & -> & Hh & Htl). cbn [lfilter_s]. eapply denotes_g_bind; [exact Htl|]. intros s' Hs'.
      rewrite (denotes_root _ _ _ _ Hh). intros r. unfold gbind at 1, gret at 1. cbn in F. destruct (crit (root v)) eqn:Ec.
      + destruct (filter_tree crit v) as [v'| | |] eqn:Ev; try discriminate. cbn [bind] in F. fold (fstream_of crit) in F.
        destruct (fstream_of crit vs) as [vs'| | |] eqn:Evs; try discriminate. cbn [bind] in F. inversion F; subst us'.
        destruct (Hv h v' Hh eq_refl r) as [h' [E1 D1]]. unfold gbind. rewrite E1. eexists. split; [reflexivity|].
        apply denotes_cons; auto.
      + fold (fstream_of crit) in F. eapply IH; eauto.
  Qed.
End FilterPure.

Lemma lfilterTol_denotes : forall E A (crit : A -> bool) tol fuel u (t : etree E A), denotes t u -> tsize u <= fuel -> crit (root u) = true ->
  exists u', filter_tol fuel crit tol u = Ok u' /\ yields (lfilterTol (fun a => gret (crit a)) tol t) u'.
Proof.
  intros E A crit tol fuel u t Ht Hf Hc. destruct (filter_tol_ok A crit tol fuel u Hf Hc) as [u' [E1 F]]. exists u'. split; auto.
  apply (proj1 (tolOk_all crit tol u)); auto.
Qed.

(* fusion of maps *)
Lemma same_refl : forall E A, (forall t : etree E A, same t t) /\ (forall s : estream E A, same_s s s).
Proof.
  intros E A. apply etree_ind3.
  - intros a shr IH. cbn. split; auto. intros r. specialize (IH r). destruct (shr r) as [[s q]| | |] eqn:K; auto. eauto.
  - exact I.
  - intros h tl Hh IH. cbn. split; auto. intros r. specialize (IH r). destruct (tl r) as [[s q]| | |] eqn:K; auto. eauto.
Qed.

Definition sameOut {E A} (x y : res (estream E A * rst E)) : Prop :=
  match x, y with
  | Ok (s, q), Ok (s', q') => q = q' /\ same_s s s'
  | UB, UB => True
  | Throw e, Throw e' => e = e'
  | OutOfFuel, OutOfFuel => True
  | _, _ => False
  end.

Lemma lmap_fusion_all : forall E A B C (f : A -> G E B) (g : B -> G E C),
  (forall t : etree E A, same_g (gbind (lmap f t) (lmap g)) (lmap (fun a => gbind (f a) g) t)) /\
  (forall s : estream E A, forall r, sameOut (gbind (lmap_s f s) (lmap_s g) r) (lmap_s (fun a => gbind (f a) g) s r)).
Proof.
  intros E A B C f g. apply etree_ind3.
  - intros a shr IH r. cbn [lmap]. unfold gbind, gret. destruct (f a r) as [[b r1]| | |]; auto. cbn [lmap].
    unfold gbind, gret. destruct (g b r1) as [[c r2]| | |]; auto. split; auto. cbn [same]. split; auto.
    intros q. destruct (shr q) as [[s q1]| | |] eqn:K; auto. specialize (IH q s q1 K q1). exact IH.
  - intros r. cbn. auto.
  - intros h tl Hh IH r. specialize (Hh r). cbn [lmap_s]. unfold gbind at 1 2 4. unfold gbind at 1 in Hh.
    destruct (lmap f h r) as [[h' r1]| | |].
    + unfold gret at 1. cbn [lmap_s]. unfold gbind at 1. destruct (lmap g h' r1) as [[h2 r2]| | |];
        destruct (lmap (fun a => gbind (f a) g) h r) as [[h3 r3]| | |]; try contradiction; auto.
      destruct Hh as [<- Hh]. cbn. split; auto. split; auto. intros q. destruct (tl q) as [[s q1]| | |] eqn:K;
        try (unfold gbind; rewrite K; exact eq_refl || exact I).
      specialize (IH q s q1 K q1). unfold gbind in IH |- *. rewrite K. exact IH.
    + destruct (lmap (fun a => gbind (f a) g) h r) as [[h3 r3]| | |]; try contradiction; auto.
    + destruct (lmap (fun a => gbind (f a) g) h r) as [[h3 r3]| | |]; try contradiction; auto.
    + destruct (lmap (fun a => gbind (f a) g) h r) as [[h3 r3]| | |]; try contradiction; auto.
Qed.

(* records of calls *)
Lemma levels_exist : forall A (kids : tree A -> list (tree A)) (fails : A -> bool),
  (forall t c, In c (kids t) -> tsize c < tsize t) -> forall t, exists L v, descent kids fails t L v.
Proof.
  intros A kids fails Hk.
  assert (H : forall n t, tsize t < n -> exists L v, descent kids fails t L v).
  { induction n as [|n IH]; intros t Ht; [lia|].
    assert (Hl : forall l, Forall (fun c => fails (root c) = false) l \/
              exists pre c post, l = pre ++ c :: post /\ Forall (fun c => fails (root c) = false) pre /\ fails (root c) = true).
    { induction l as [|c l IHl]; [left; constructor|]. destruct (fails (root c)) eqn:Ec.
      - right. exists [], c, l. auto.
      - destruct IHl as [HF|(pre & d & post & -> & HF & Hd)].
        + left. constructor; auto.
        + right. exists (c :: pre), d, post. auto. }
    destruct (Hl (kids t)) as [HF|(pre & c & post & Ek & HF & Hc)].
    - do 2 eexists. apply descent_stop; auto.
    - destruct (IH c) as [L [v HD]]. { assert (tsize c < tsize t); [|lia]. apply Hk. rewrite Ek. apply in_elt. }
      do 2 eexists. eapply descent_down; eauto. }
  intros t. apply (H (S (tsize t))). lia.
Qed.

Lemma descent_unique : forall A kids fails (t : tree A) L v, descent kids fails t L v ->
  forall L' v', descent kids fails t L' v' -> L = L' /\ v = v'.
Proof.
  intros A kids fails t L v H. 
  assert (Hspl : forall pre c post pre' c' post', pre ++ c :: post = pre' ++ c' :: post' ->
    Forall (fun c : tree A => fails (root c) = false) pre -> Forall (fun c => fails (root c) = false) pre' ->
    fails (root c) = true -> fails (root c') = true -> pre = pre' /\ c = c').
  { induction pre as [|x pre IH]; intros c post [|x' pre'] c' post' E F F' Hc Hc'; cbn in E; injection E as E1 E2.
    - auto.
    - inversion F'; congruence.
    - inversion F; congruence.
    - inversion F; inversion F'; subst. destruct (IH c post pre' c' post' E2) as [-> ->]; auto. }
  induction H as [t HF|t pre c post L v Ek HF Hc HD IH]; intros L' v' H'.
  - inversion H' as [? HF'|? pre' c' post' M w Ek' HF' Hc' HD']; subst; auto.
    rewrite Ek' in HF. apply Forall_elt in HF. congruence.
  - inversion H' as [? HF'|? pre' c' post' M w Ek' HF' Hc' HD']; subst.
    + rewrite Ek in HF'. apply Forall_elt in HF'. congruence.
    + rewrite Ek in Ek'. destruct (Hspl _ _ _ _ _ _ Ek' HF HF' Hc Hc') as [-> ->]. destruct (IH _ _ HD') as [-> ->]. auto.
Qed.

Section Served.
  Context {A B X : Type} (f : A -> X) (kids : tree A -> list (tree A)) (looks : tree A -> list A).
  Context (note : A -> list (event A B)) (ok : A -> bool).
  Notation J := (journal A B).

  (* [w] is the lazy shrinkable made from the node [u]: computing its shrinks reads on to the first candidate *)
  Inductive served : etree J X -> tree A -> Prop :=
  | served_intro : forall (w : etree J X) u, eroot w = f (root u) ->
      (forall log : list (event A B), exists s, eshrinks w log = Ok (s, log ++ flat_map note (fst (reading ok (looks u)))) /\
         served_s s (kids u) (snd (reading ok (looks u)))) -> served w u
  with served_s : estream J X -> list (tree A) -> list A -> Prop :=
  | served_nil : forall l, served_s ENil [] l
  | served_cons : forall h (tl : G J (estream J X)) k ks l, served h k ->
      (forall log : list (event A B), exists s, tl log = Ok (s, log ++ flat_map note (fst (reading ok l))) /\ served_s s ks (snd (reading ok l))) ->
      served_s (ECons h tl) (k :: ks) l.

  Context (fails : X -> bool) (say : A -> event A B) (sayX : X -> event A B).
  Hypothesis Hsay : forall a, sayX (f a) = say a.

  Definition record (L : list (tree A * list A)) : list (event A B) :=
    flat_map (fun p => level note say ok (looks (fst p)) (snd p)) L.

  Notation tst := (noting sayX (fun x => negb (fails x))).

  Lemma search_pass : forall pre ks l s cur, served_s s (pre ++ ks) l -> Forall (fun c => fails (f (root c)) = false) pre ->
    forall log : list (event A B), exists s' l', served_s s' ks l' /\
      lsearch tst cur s log = lsearch tst cur s' (log ++ ahead note say ok l (map root pre)) /\
      forall r, ahead note say ok l (map root pre ++ r) = ahead note say ok l (map root pre) ++ ahead note say ok l' r.
  Proof.
    induction pre as [|c pre IH]; intros ks l s cur Hs HF log.
    - exists s, l. cbn. rewrite app_nil_r. repeat split; auto.
    - cbn [app] in Hs. inversion Hs as [|h tl ? ? ? Hh Htl]; subst. inversion HF as [|? ? Hc HF']; subst.
      destruct (Htl log) as [s1 [E1 D1]].
      destruct (IH _ _ _ cur D1 HF' (log ++ flat_map note (fst (reading ok l)) ++ [say (root c)])) as (s' & l' & H1 & H2 & H3).
      exists s', l'. split; [exact H1|]. split.
      + cbn [lsearch]. unfold gbind at 1. rewrite E1. unfold gbind at 1, noting at 1.
        inversion Hh as [? ? Er _]; subst. rewrite Er, Hc, Hsay. cbn [negb]. rewrite <- app_assoc.
        etransitivity; [exact H2|]. f_equal. cbn [map ahead]. destruct (reading ok l) as [a b]. cbn [fst snd].
        repeat rewrite <- app_assoc. reflexivity.
      + intros r. cbn [map ahead app]. destruct (reading ok l) as [a b]. cbn [fst snd] in H3. rewrite H3.
        rewrite <- app_assoc. reflexivity.
  Qed.

  Lemma search_served : forall u L v, descent kids (fun a => fails (f a)) u L v -> forall w, served w u ->
    forall log : list (event A B), lsearch_t tst w log = Ok (f v, log ++ record L).
  Proof.
    induction 1 as [u HF|u pre c post L v Ek HF Hc HD IH]; intros w Hw log; inversion Hw as [? ? Er Hs]; subst.
    - destruct (Hs log) as [s [E1 D1]]. destruct w as [x shr]. cbn [eroot eshrinks lsearch_t] in *. unfold gbind. rewrite E1.
      rewrite <- (app_nil_r (kids u)) in D1.
      destruct (search_pass _ _ _ _ x D1 HF (log ++ flat_map note (fst (reading ok (looks u))))) as (s' & l' & H1 & H2 & _).
      inversion H1; subst. etransitivity; [exact H2|]. cbn. unfold record. cbn. rewrite app_nil_r. unfold level.
      destruct (reading ok (looks u)) as [a b]. cbn [fst snd]. rewrite <- app_assoc. unfold gret. reflexivity.
    - destruct (Hs log) as [s [E1 D1]]. destruct w as [x shr]. cbn [eroot eshrinks lsearch_t] in *. unfold gbind. rewrite E1.
      rewrite Ek in D1.
      destruct (search_pass _ _ _ _ x D1 HF (log ++ flat_map note (fst (reading ok (looks u))))) as (s' & l' & H1 & H2 & H3).
      inversion H1 as [|h tl ? ? ? Hh Htl]; subst. etransitivity; [exact H2|]. cbn [lsearch].
      match goal with |- gbind tl _ ?g = _ => destruct (Htl g) as [s1 [E2 _]]; unfold gbind at 1; rewrite E2 end.
      unfold gbind at 1, noting at 1. inversion Hh as [? ? Er2 _]; subst. rewrite Er2, Hc, Hsay. cbn [negb].
      etransitivity; [apply IH; exact Hh|]. do 2 f_equal. unfold record. cbn [flat_map fst snd]. unfold level at 2.
      destruct (reading ok (looks u)) as [a b]. cbn [fst snd] in *. rewrite H3. cbn [ahead]. destruct (reading ok l') as [a' b'].
      cbn [fst]. repeat rewrite <- app_assoc. reflexivity.
  Qed.
End Served.

(* map *)
Lemma served_map : forall A B (f : A -> B) u (t : etree (journal A B) A), denotes t u ->
  forall log : list (event A B), exists w, lmap (noting Called f) t log = Ok (w, log ++ [Called (root u)]) /\
    served f shrinks (fun u => map root (shrinks u)) (fun a => [Called a]) (fun _ => true) w u.
Proof.
  intros A B f. induction u as [a us IH] using tree_ind'. intros t Ht log. destruct t as [a' shr].
  apply denotes_node in Ht. destruct Ht as [<- Hs]. cbn [eroot eshrinks] in Hs |- *. cbn. eexists. split; [reflexivity|].
  assert (Hst : forall s, denotes_s us s -> forall log : list (event A B), exists s',
    lmap_s (noting Called f) s log = Ok (s', log ++ flat_map (fun a => [Called a]) (fst (reading (fun _ => true) (map root us)))) /\
    served_s f shrinks (fun u => map root (shrinks u)) (fun a => [Called a]) (fun _ => true) s' us (snd (reading (fun _ => true) (map root us)))).
  { clear Hs log. induction IH as [|v vs Hv _ IH]; intros s Hs log.
    - cbn in Hs. subst s. cbn. rewrite app_nil_r. eexists. split; [reflexivity|]. constructor.
    - destruct Hs as (h & tl & -> & Hh & Htl). destruct (Hv h Hh log) as [h' [E1 D1]]. cbn [lmap_s]. unfold gbind at 1.
      rewrite E1. eexists. split; [reflexivity|]. cbn. constructor; auto.
      intros log'. destruct (Htl log') as [s' [E2 D2]]. unfold gbind. rewrite E2. apply IH; auto. }
  constructor; [reflexivity|]. intros log'. cbn [eshrinks]. destruct (Hs log') as [s [E1 D1]]. unfold gbind. rewrite E1.
  apply Hst; auto.
Qed.

(* filter *)
Definition twice {A B} (crit : A -> bool) (x : A) : list (event A B) := if crit x then [Called x; Called x] else [Called x].

Lemma visited_eq : forall A (crit : A -> bool) tol t,
  visited crit tol t = root t :: if crit (root t) then [] else flat_map (visited crit tol) (stake tol (shrinks t)).
Proof.
  intros A crit tol [a ts]. cbn [visited root shrinks]. f_equal. destruct (crit a); auto. generalize tol at 2 4.
  induction ts as [|s r IH]; intros k; [reflexivity|]. cbn [stake]. destruct (k =? 0)%Z; [reflexivity|]. cbn [flat_map]. rewrite IH. reflexivity.
Qed.

Section FilterServed.
  Context {A B : Type} (crit : A -> bool) (tol : Z).
  Notation J := (journal A B).
  Notation ncrit := (noting (Called : A -> event A B) crit).
  Let kids (u : tree A) := flat_map (survivors crit tol) (shrinks u).
  Let looks (u : tree A) := flat_map (visited crit tol) (shrinks u).
  Notation srv := (served (B := B) (fun a => a) kids looks (twice crit) crit).
  Notation srv_s := (served_s (B := B) (fun a => a) kids looks (twice crit) crit).

  Definition servesG (g : G J (estream J A)) (K : list (tree A)) (l : list A) : Prop :=
    forall log : list (event A B), exists s, g log = Ok (s, log ++ flat_map (twice crit) (fst (reading crit l))) /\
      srv_s s K (snd (reading crit l)).

  Definition tolServed (u : tree A) : Prop := forall t : etree J A, denotes t u -> crit (root u) = true ->
    forall log : list (event A B), exists w, lfilterTol ncrit tol t log = Ok (w, log ++ [Called (root u)]) /\ srv w u.
  Definition tolServeds (us : list (tree A)) : Prop := forall (s : estream J A) n k K l, denotes_s us s -> servesG k K l ->
    servesG (lfilterTol_s ncrit tol s n k) (flat_map (survivors crit tol) (stake n us) ++ K) (flat_map (visited crit tol) (stake n us) ++ l).

  Lemma tolServeds_all : forall us, Forall (fun u => tolServed u /\ tolServeds (shrinks u)) us -> tolServeds us.
  Proof.
    induction 1 as [|v vs [Hv Hvs] _ IH]; intros s n k K l Hs Hk; rewrite lfilterTol_s_eq; cbn [stake].
    - cbn in Hs. subst s. cbn [flat_map app]. destruct (n =? 0)%Z; auto.
    - destruct (n =? 0)%Z. { cbn [flat_map app]. auto. }
      destruct Hs as (h & tl & -> & Hh & Htl). cbn [flat_map]. rewrite visited_eq. intros log.
      destruct (Htl log) as [s' [E1 D1]]. unfold gbind at 1. rewrite E1. rewrite (denotes_root _ _ _ _ Hh).
      unfold gbind at 1, noting at 1. specialize (IH s' (n - 1)%Z k K l D1 Hk).
      destruct (crit (root v)) eqn:Ec.
      + rewrite survivors_accept by auto. cbn [app].
        destruct (Hv h Hh Ec (log ++ [Called (root v)])) as [w [E2 S2]]. unfold gbind. rewrite E2.
        eexists. cbn [reading]. rewrite Ec. cbn [fst snd flat_map]. unfold twice at 1. rewrite Ec. cbn [app].
        rewrite <- app_assoc. cbn [app]. split; [reflexivity|]. constructor; auto.
      + rewrite survivors_reject by auto. rewrite <- app_assoc. cbn [app].
        destruct (denotes_shrinks _ _ _ _ Hh (log ++ [Called (root v)])) as [c [E2 D2]]. unfold gbind. rewrite E2.
        rewrite <- app_assoc. cbn [reading]. rewrite Ec.
        destruct (Hvs c tol _ _ _ D2 IH (log ++ [Called (root v)])) as [s2 [E3 D3]]. rewrite E3.
        exists s2. destruct (reading crit _) as [a b]. cbn [fst snd flat_map] in *. split; [|exact D3].
        unfold twice at 2. rewrite Ec. rewrite <- app_assoc. reflexivity.
  Qed.

  Lemma tolServed_all : forall u, tolServed u /\ tolServeds (shrinks u).
  Proof.
    induction u as [a us IH] using tree_ind'. apply tolServeds_all in IH. split; [|exact IH].
    intros t Ht Hc log. destruct t as [a' shr]. apply denotes_node in Ht.
    destruct Ht as [Ea Hs]. cbn [eroot eshrinks root] in Ea, Hs, Hc |- *. subst a'. cbn [lfilterTol]. unfold gbind at 1, noting at 1. rewrite Hc.
    cbn [negb]. eexists. split; [reflexivity|]. constructor; [reflexivity|]. intros log'. cbn [eshrinks].
    destruct (Hs log') as [s [E1 D1]]. unfold gbind. rewrite E1.
    assert (H0 : servesG (gret ENil) [] []). { intros lg. exists ENil. cbn. rewrite app_nil_r. split; [reflexivity|constructor]. }
    specialize (IH s (-1)%Z _ _ _ D1 H0). rewrite stake_neg in IH by lia. rewrite !app_nil_r in IH. apply IH.
  Qed.
End FilterServed.

Section PlainServed.
  Context {A B : Type} (crit : A -> bool).
  Notation J := (journal A B).
  Notation ncrit := (noting (Called : A -> event A B) crit).
  Let kids (u : tree A) := filter (fun c => crit (root c)) (shrinks u).
  Let looks (u : tree A) := map root (shrinks u).
  Notation srv := (served (B := B) (fun a => a) kids looks (twice crit) crit).
  Notation srv_s := (served_s (B := B) (fun a => a) kids looks (twice crit) crit).

  Lemma filter_served : forall u (t : etree J A), denotes t u -> crit (root u) = true ->
    forall log : list (event A B), exists w, lfilter ncrit t log = Ok (w, log ++ [Called (root u)]) /\ srv w u.
  Proof.
    induction u as [a us IH] using tree_ind'. intros t Ht Hc log. destruct t as [a' shr]. apply denotes_node in Ht.
    destruct Ht as [Ea Hs]. cbn [eroot eshrinks root] in Ea, Hs, Hc |- *. subst a'. cbn [lfilter]. unfold gbind at 1, noting at 1. rewrite Hc.
    cbn [negb]. eexists. split; [reflexivity|]. constructor; [reflexivity|]. intros log'. cbn [eshrinks].
    destruct (Hs log') as [s [E1 D1]]. unfold gbind. rewrite E1. subst kids looks. cbn [shrinks]. clear Hs E1 log Hc. revert s D1 log'.
    induction IH as [|v vs Hv _ IH]; intros s Hs log.
    - cbn in Hs. subst s. cbn. rewrite app_nil_r. eexists. split; [reflexivity|]. constructor.
    - destruct Hs as (h & tl & -> & Hh & Htl). cbn [lfilter_s]. destruct (Htl log) as [s' [E1 D1]]. unfold gbind at 1. rewrite E1.
      rewrite (denotes_root _ _ _ _ Hh). unfold gbind at 1, noting at 1. cbn [map filter reading]. destruct (crit (root v)) eqn:Ec.
      + destruct (Hv h Hh eq_refl (log ++ [Called (root v)])) as [w [E2 S2]]. unfold gbind. rewrite E2.
        eexists. cbn [fst snd flat_map]. unfold twice at 1. rewrite Ec. cbn [app].
        rewrite <- app_assoc. cbn [app]. split; [reflexivity|]. constructor; auto.
      + destruct (IH s' D1 (log ++ [Called (root v)])) as [s2 [E3 D3]]. rewrite E3. exists s2.
        destruct (reading crit (map root vs)) as [x y]. cbn [fst snd flat_map] in *. split; [|exact D3].
        unfold twice at 2. rewrite Ec. rewrite <- app_assoc. reflexivity.
  Qed.
End PlainServed.

(* exceptions *)
Lemma gbind_ok : forall E A B (g : G E A) (k : A -> G E B) r a r', g r = Ok (a, r') -> gbind g k r = k a r'.
Proof. intros E A B g k r a r' H. unfold gbind. rewrite H. reflexivity. Qed.
Lemma gbind_ok2 : forall E A B C (g : G E A) (m : A -> G E B) (k : B -> G E C) r a r', g r = Ok (a, r') ->
  gbind (gbind g m) k r = gbind (m a) k r'.
Proof. intros E A B C g m k r a r' H. unfold gbind. rewrite H. reflexivity. Qed.
Lemma gbind_throw : forall E A B (g : G E A) (k : A -> G E B) r e, g r = Throw e -> gbind g k r = Throw e.
Proof. intros E A B g k r e H. unfold gbind. rewrite H. reflexivity. Qed.

Lemma firstError_app : forall A B (f : A -> B + err) l1 l2,
  firstError f (l1 ++ l2) = match firstError f l1 with Some e => Some e | None => firstError f l2 end.
Proof. induction l1 as [|x l1 IH]; intros l2; [reflexivity|]. cbn. destruct (f x); auto. Qed.

Section Raising.
  Context {E : engine} {A B : Type} (f : A -> B + err) (fails : B -> bool).
  Notation rf := (@raising E A B f).
  Notation pt := (fun b => @gret E bool (negb (fails b))).
  Notation failsA := (fun a => match f a with inl b => fails b | inr _ => false end).

  Lemma raise_head : forall v vs (s : estream E A), denotes_s (v :: vs) s -> forall r,
    match f (root v) with
    | inr e => lmap_s rf s r = Throw e
    | inl b => exists h tl, denotes h v /\ denotes_g vs tl /\
        lmap_s rf s r = Ok (ECons (ENode b (gbind (eshrinks h) (lmap_s rf))) (gbind tl (lmap_s rf)), r)
    end.
  Proof.
    intros v vs s (h & tl & -> & Hh & Htl) r. pose proof (denotes_root _ _ _ _ Hh) as Er. destruct h as [a shr]. cbn [eroot] in Er. subst a.
    destruct (f (root v)) as [b|e] eqn:Ef.
    - exists (ENode (root v) shr), tl. split; [auto|]. split; [auto|].
      assert (Hr : forall q, rf (root v) q = Ok (b, q)) by (intros q; unfold raising; rewrite Ef; reflexivity).
      cbn [lmap_s lmap]. unfold gbind at 1 2. rewrite Hr. reflexivity.
    - assert (Hr : forall q, rf (root v) q = Throw e) by (intros q; unfold raising; rewrite Ef; reflexivity).
      cbn [lmap_s lmap]. unfold gbind. rewrite Hr. reflexivity.
  Qed.

  Lemma raise_pass : forall pre us (s : estream E A) cur, denotes_s (pre ++ us) s -> Forall (fun c => failsA (root c) = false) pre ->
    forall r, match firstError f (map root pre) with
              | Some e => gbind (lmap_s rf s) (lsearch pt cur) r = Throw e
              | None => exists s', denotes_s us s' /\
                  gbind (lmap_s rf s) (lsearch pt cur) r = gbind (lmap_s rf s') (lsearch pt cur) r
              end.
  Proof.
    induction pre as [|c pre IH]; intros us s cur Hs HF r.
    - cbn. eauto.
    - inversion HF as [|? ? Hc HF']; subst. cbn [app] in Hs. pose proof (raise_head _ _ _ Hs r) as Hh. cbn [map firstError].
      destruct (f (root c)) as [b|e] eqn:Ef.
      + destruct Hh as (h & tl & Dh & Dtl & E1). destruct (Dtl r) as [s1 [E2 D2]]. specialize (IH us s1 cur D2 HF' r).
        assert (Heq : gbind (lmap_s rf s) (lsearch pt cur) r = gbind (lmap_s rf s1) (lsearch pt cur) r).
        { rewrite (gbind_ok _ _ _ _ _ _ _ _ E1). cbn [lsearch]. rewrite (gbind_ok2 _ _ _ _ _ _ _ _ _ _ E2).
          destruct (lmap_s rf s1 r) as [[s2 r2]| | |] eqn:K; try (unfold gbind; rewrite K; reflexivity).
          rewrite !(gbind_ok _ _ _ _ _ _ _ _ K). unfold gbind at 1, gret at 1. cbn [eroot]. rewrite Hc. reflexivity. }
        rewrite Heq. exact IH.
      + unfold gbind. rewrite Hh. reflexivity.
  Qed.

  Definition called (L : list (tree A * list A)) : list A :=
    flat_map (fun p => firstn (S (length (snd p))) (map root (shrinks (fst p)))) L.

  Lemma raise_search : forall u L v, descent shrinks failsA u L v -> forall (t : etree E A) b, denotes t u -> f (root u) = inl b ->
    forall r, match firstError f (called L) with
              | Some e => lsearch_t pt (ENode b (gbind (eshrinks t) (lmap_s rf))) r = Throw e
              | None => exists y, f v = inl y /\ lsearch_t pt (ENode b (gbind (eshrinks t) (lmap_s rf))) r = Ok (y, r)
              end.
  Proof.
    induction 1 as [u HF|u pre c post L v Ek HF Hc HD IH]; intros t b Ht Hb r; pose proof (denotes_shrinks _ _ _ _ Ht r) as (s & E1 & D1);
      cbn [lsearch_t].
    - rewrite <- (app_nil_r (shrinks u)) in D1. pose proof (raise_pass _ _ _ b D1 HF r) as Hp.
      assert (Hx : gbind (gbind (eshrinks t) (lmap_s rf)) (lsearch pt b) r = gbind (lmap_s rf s) (lsearch pt b) r).
      { unfold gbind. rewrite E1. reflexivity. }
      rewrite Hx. unfold called. cbn [flat_map fst snd]. rewrite app_nil_r.
      rewrite firstn_all2 by (rewrite map_length; lia).
      destruct (firstError f (map root (shrinks u))) as [e|]; [exact Hp|]. destruct Hp as [s' [D2 E2]]. cbn in D2. subst s'.
      rewrite E2. cbn. eauto.
    - rewrite Ek in D1. pose proof (raise_pass _ _ _ b D1 HF r) as Hp.
      assert (Hx : gbind (gbind (eshrinks t) (lmap_s rf)) (lsearch pt b) r = gbind (lmap_s rf s) (lsearch pt b) r).
      { unfold gbind. rewrite E1. reflexivity. }
      rewrite Hx. unfold called. cbn [flat_map fst snd]. fold (called L).
      assert (Hl : firstn (S (length (map root pre ++ [root c]))) (map root (shrinks u)) = map root pre ++ root c :: firstn 1 (map root post)).
      { rewrite Ek, map_app. cbn [map]. rewrite app_length. cbn [length]. rewrite firstn_app.
        rewrite firstn_all2 by lia. f_equal. replace (S (length (map root pre) + 1) - length (map root pre)) with 2 by lia. reflexivity. }
      rewrite Hl. clear Hl. rewrite <- app_assoc. rewrite firstError_app. 
      destruct (firstError f (map root pre)) as [e|]; [exact Hp|]. destruct Hp as [s' [D2 E2]]. rewrite E2. clear E2 Hx.
      cbn [app firstError]. pose proof (raise_head _ _ _ D2 r) as Hh. destruct (f (root c)) as [bc|e] eqn:Ef.
      2:{ discriminate. }
      destruct Hh as (h & tl & Dh & Dtl & E3). rewrite (gbind_ok _ _ _ _ _ _ _ _ E3). cbn [lsearch].
      destruct (Dtl r) as [s1 [E4 D4]]. rewrite (gbind_ok2 _ _ _ _ _ _ _ _ _ _ E4). rewrite firstError_app.
      assert (Hgo : forall s2, lmap_s rf s1 r = Ok (s2, r) ->
        gbind (lmap_s rf s1) (fun s' => gbind (pt (eroot (ENode bc (gbind (eshrinks h) (lmap_s rf))))) (fun b0 =>
          if b0 then lsearch pt b s' else lsearch_t pt (ENode bc (gbind (eshrinks h) (lmap_s rf))))) r =
        lsearch_t pt (ENode bc (gbind (eshrinks h) (lmap_s rf))) r).
      { intros s2 H2. rewrite (gbind_ok _ _ _ _ _ _ _ _ H2). unfold gbind at 1, gret at 1. cbn [eroot]. rewrite Hc. reflexivity. }
      destruct post as [|p post].
      + cbn in D4. subst s1. cbn [firstn map firstError]. rewrite (Hgo ENil eq_refl). apply (IH h bc Dh eq_refl r).
      + pose proof (raise_head _ _ _ D4 r) as Hp2. cbn [map firstn firstError]. destruct (f (root p)) as [bp|e].
        * destruct Hp2 as (hp & tlp & _ & _ & E5). rewrite (Hgo _ E5). apply (IH h bc Dh eq_refl r).
        * apply gbind_throw. exact Hp2.
  Qed.
End Raising.

(* search *)
Lemma pure_search : forall E A (fails : A -> bool) u L v, descent shrinks fails u L v -> forall t : etree E A, denotes t u ->
  forall r, lsearch_t (fun a => gret (negb (fails a))) t r = Ok (v, r).
Proof.
  intros E A fails.
  assert (Hpass : forall pre us (s : estream E A) cur r, denotes_s (pre ++ us) s -> Forall (fun c => fails (root c) = false) pre ->
    exists s', denotes_s us s' /\ lsearch (fun a => gret (negb (fails a))) cur s r = lsearch (fun a => gret (negb (fails a))) cur s' r).
  { induction pre as [|c pre IH]; intros us s cur r Hs HF; [cbn; eauto|]. inversion HF as [|? ? Hc HF']; subst.
    cbn [app] in Hs. destruct Hs as (h & tl & -> & Hh & Htl). destruct (Htl r) as [s1 [E1 D1]].
    destruct (IH us s1 cur r D1 HF') as [s' [D2 E2]]. exists s'. split; auto. cbn [lsearch].
    rewrite (gbind_ok _ _ _ _ _ _ _ _ E1). unfold gbind at 1, gret at 1. rewrite (denotes_root _ _ _ _ Hh), Hc. exact E2. }
  induction 1 as [u HF|u pre c post L v Ek HF Hc HD IH]; intros t Ht r; pose proof (denotes_shrinks _ _ _ _ Ht r) as (s & E1 & D1);
    pose proof (denotes_root _ _ _ _ Ht) as Er; destruct t as [a shr]; cbn [eroot eshrinks lsearch_t] in *; rewrite (gbind_ok _ _ _ _ _ _ _ _ E1).
  - rewrite <- (app_nil_r (shrinks u)) in D1. destruct (Hpass _ _ _ a r D1 HF) as [s' [D2 E2]]. cbn in D2. subst s'. rewrite E2. subst a. reflexivity.
  - rewrite Ek in D1. destruct (Hpass _ _ _ a r D1 HF) as [s' [D2 E2]]. rewrite E2. destruct D2 as (h & tl & -> & Hh & Htl).
    cbn [lsearch]. destruct (Htl r) as [s1 [E3 _]]. rewrite (gbind_ok _ _ _ _ _ _ _ _ E3). unfold gbind at 1, gret at 1.
    rewrite (denotes_root _ _ _ _ Hh), Hc. apply IH. exact Hh.
Qed.

Lemma kids_smaller : forall A (crit : A -> bool) tol t c, In c (flat_map (survivors crit tol) (shrinks t)) -> tsize c < tsize t.
Proof.
  intros A crit tol t c H. apply in_flat_map in H. destruct H as [d [Hd Hc]]. apply survivors_In in Hc. destruct Hc as [Hr _].
  apply reach_tsize in Hr. apply child_tsize in Hd. lia.
Qed.

(* what a record says *)
Lemma reading_true : forall A (l : list A), reading (fun _ => true) l = (firstn 1 l, skipn 1 l).
Proof. destruct l; reflexivity. Qed.

Lemma calls_app : forall A B (l1 l2 : list (event A B)), calls (l1 ++ l2) = calls l1 ++ calls l2.
Proof. intros. unfold calls. apply flat_map_app'. Qed.
Lemma tests_app : forall A B (l1 l2 : list (event A B)), tests (l1 ++ l2) = tests l1 ++ tests l2.
Proof. intros. unfold tests. apply flat_map_app'. Qed.
Lemma calls_notes : forall A B (l : list A), calls (flat_map (fun a => [Called a : event A B]) l) = l.
Proof. induction l as [|x l IH]; cbn; f_equal; auto. Qed.
Lemma tests_notes : forall A B (l : list A), tests (flat_map (fun a => [Called a : event A B]) l) = [].
Proof. induction l as [|x l IH]; cbn; auto. Qed.

Lemma map_level_calls : forall A B (f : A -> B) l tried, length tried <= length l ->
  calls (level (fun a => [Called a]) (fun a => Tested (f a)) (fun _ => true) l tried) = firstn (S (length tried)) l.
Proof.
  intros A B f l tried Hl. unfold level. rewrite reading_true. rewrite calls_app, calls_notes.
  assert (H : forall tried l, calls (ahead (fun a => [Called a]) (fun a => Tested (f a)) (fun _ => true) l tried) = firstn (length tried) l).
  { induction tried0 as [|x r IH]; intros k; [destruct k; reflexivity|]. cbn [ahead]. rewrite reading_true. rewrite calls_app, calls_notes.
    change (calls (Tested (f x) :: ?z)) with (calls z). cbn [calls flat_map app]. fold (calls (A := A) (B := B)).
    rewrite IH. destruct k as [|y k]; cbn; rewrite ?firstn_nil; reflexivity. }
  rewrite H. destruct l as [|y l]; cbn; rewrite ?firstn_nil; reflexivity.
Qed.

Lemma level_tests : forall A B (f : A -> B) (note : A -> list (event A B)) ok l tried, (forall a : A, tests (note a) = []) ->
  tests (level note (fun a => Tested (f a)) ok l tried) = map f tried.
Proof.
  intros A B f note ok l tried Hn.
  assert (Hf : forall l, tests (flat_map note l) = []) by (induction l0 as [|y l0 IHl0]; [reflexivity|]; cbn [flat_map]; rewrite tests_app, Hn; exact IHl0).
  assert (H : forall tried l, tests (ahead note (fun a => Tested (f a)) ok l tried) = map f tried).
  { induction tried0 as [|x r IH]; intros k; [reflexivity|]. cbn [ahead]. destruct (reading ok k) as [a b]. rewrite tests_app, Hf.
    cbn [map app]. rewrite <- (IH b). reflexivity. }
  unfold level. destruct (reading ok l) as [a b]. rewrite tests_app, Hf, H. reflexivity.
Qed.

Lemma descent_tried : forall A kids fails (u : tree A) L v, descent kids fails u L v ->
  Forall (fun p => length (snd p) <= length (kids (fst p))) L.
Proof.
  induction 1 as [u HF|u pre c post L v Ek HF Hc HD IH]; constructor; auto; cbn [fst snd].
  - rewrite map_length. auto.
  - rewrite Ek, !app_length, map_length. cbn. lia.
Qed.
