(** Proofs about how likely the values of dependent generators are: the generators themselves. *)
From Coq Require Import List ZArith QArith Bool Lia Permutation.
From Verif Require Import Base TreeModel TreeSpec TreeProof RandomModel IntegralModel IntegralSpec BinSearchProof IntegralProof BinSearchModel ListModel ListSpec ListMainProof ContainerModel ContainerProof EffModel EffProof.
From Verif Require ErasureSpec ErasureProof ErasureEffProof PropList SupportProof.
From Verif Require Import ContextModel RunnerModel ChanceSpec ChanceProof ChanceLawProof DepChanceSpec DepChanceProof.
Import ListNotations.

Definition onRoot {A} (f : A -> Q) (x : res (ptree A)) : Q := match x with Ok t => f (proot t) | _ => 0 end.

(** ** Shrinkables made without drawing *)
Fixpoint plift {A} (t : tree A) : ptree A :=
  match t with Node a ts => PNode a (Ends (Ok ((fix go (ts : list (tree A)) : pstream A := match ts with [] => PNil | s :: r => PCons (plift s) (Ends (Ok (go r))) end) ts))) end.
Fixpoint plist {A} (ts : list (tree A)) : pstream A := match ts with [] => PNil | s :: r => PCons (plift s) (Ends (Ok (plist r))) end.
Lemma plift_eq : forall A (t : tree A), plift t = PNode (root t) (Ends (Ok (plist (shrinks t)))).
Proof.
  intros A [a ts]. cbn [plift root shrinks]. do 3 f_equal. all: induction ts as [|u ts IH]; cbn; [reflexivity|]. all: do 2 f_equal. all: f_equal; auto.
Qed.
Lemma lift_acts : forall E A B X (R : A -> B -> Prop) (f : X -> A) (f' : X -> B) (t : tree X), (forall x, R (f x) (f' x)) ->
  acts R (elift (E := E) (map_tree f t)) (plift (map_tree f' t)).
Proof.
  intros * H. induction t as [a ts IH] using tree_ind'. rewrite !ErasureProof.map_tree_eq, elift_eq, plift_eq. cbn [root shrinks]. split; [auto|].
  apply runs_ret. induction IH as [|u us Hu IH IHus]; cbn [map elist plist]; [exact I|]. split; [auto|]. apply runs_ret. auto.
Qed.
Lemma lift_eq : forall E A (t : tree A), acts eq (elift (E := E) t) (plift t).
Proof. intros. pose proof (lift_acts E A A A eq (fun x => x) (fun x => x) t ltac:(auto)) as H. rewrite map_tree_id in H. auto. Qed.
Lemma plift_calm : forall A (V : A -> Prop) t, all_values V t -> calm V (plift t).
Proof.
  intros A V t H. apply all_values_values in H. induction t as [a ts IH] using tree_ind'. rewrite plift_eq. cbn [root shrinks].
  cbn [values] in H. inversion H as [|x l Ha Hts]; subst. split; [auto|]. cbn [ends]. clear H Ha. induction IH as [|u us Hu IH IHus]; cbn [plist]; [exact I|].
  cbn [flat_map] in Hts. apply Forall_app in Hts. destruct Hts as [H1 H2]. split; [auto|]. cbn [ends]. auto.
Qed.
Lemma plift_root : forall A (t : tree A), proot (plift t) = root t.
Proof. intros A [a ts]. reflexivity. Qed.

Lemma runs_play : forall E A (g : G E A) p, (forall r, g r = play p r) -> runs eq g p.
Proof. intros E A g p H r. rewrite H. destruct (play p r) as [[x q]| | |]; eauto. Qed.
Lemma obeys_lift : forall A (V : A -> Prop) (g : forall E, gen E A) p, (forall E r, g E r = play p r) -> ends (all_values V) p ->
  obeys V (fun E => liftGen (g E)) (pthen (fun t => Ends (Ok (plift t))) p).
Proof.
  intros A V g p Hg Hp. split.
  - intros E. eapply runs_bind; [apply runs_play; apply Hg|exact Hp|]. intros _ x y _ _ -> _. apply runs_ret. apply lift_eq.
  - eapply ends_then; [exact Hp|]. intros t Ht. cbn. apply plift_calm. auto.
Qed.
Lemma expect_lift : forall A (P : tree A -> Prop) p f, ends P p -> expect (pthen (fun t => Ends (Ok (plift t))) p) f == mean p (fun x => match x with Ok t => f (root t) | _ => 0 end).
Proof.
  intros A P p f Hp. unfold expect. rewrite mean_then. eapply mean_ends; [exact Hp|]. intros t _. cbn [over mean]. rewrite plift_root. reflexivity.
Qed.

(** ** Plans of whole trees *)
Definition intTail (ty : ity) (min max value : Z) : res (tree Z) :=
  (if (value <? min) || (max <? value) then Throw ERuntime
  else if 0 <=? min then
    bind (arith ty (value - min)) (fun d => bind (binarySearchU (wrapU 64 (castT ty d))) (fun t => Ok (map_tree (plusFunctor ty min) t)))
  else if max <=? 0 then
    bind (arith ty (value - max)) (fun d => bind (binarySearch (wrapS 64 (castT ty d))) (fun t => Ok (map_tree (plusFunctor ty max) t)))
  else bind (binarySearch (wrapS 64 value)) (fun t => Ok (map_tree (castT ty) t)))%Z.
Definition intPlan (ty : ity) (min max : Z) : plan (tree Z) := pthen (fun v => Ends (intTail ty min max v)) (picked ty min max).
Lemma intTail_play : forall E ty min max v (r : rst E),
  (if (v <? min) || (max <? v) then gfail (Throw ERuntime)
  else if 0 <=? min then
    gbind (gfail (arith ty (v - min))) (fun d =>
    gbind (gfail (binarySearchU (wrapU 64 (castT ty d)))) (fun t =>
    gret (map_tree (plusFunctor ty min) t)))
  else if max <=? 0 then
    gbind (gfail (arith ty (v - max))) (fun d =>
    gbind (gfail (binarySearch (wrapS 64 (castT ty d)))) (fun t =>
    gret (map_tree (plusFunctor ty max) t)))
  else
    gbind (gfail (binarySearch (wrapS 64 v))) (fun t =>
    gret (map_tree (castT ty) t)))%Z r = play (Ends (intTail ty min max v)) r.
Proof.
  intros. unfold intTail, gbind, gfail, gret. destruct ((v <? min) || (max <? v))%Z; [reflexivity|]. destruct (0 <=? min)%Z.
  - destruct (arith ty (v - min)) as [d| | |]; cbn [bind play]; try reflexivity. destruct (binarySearchU _); reflexivity.
  - destruct (max <=? 0)%Z.
    + destruct (arith ty (v - max)) as [d| | |]; cbn [bind play]; try reflexivity. destruct (binarySearch _); reflexivity.
    + destruct (binarySearch _); reflexivity.
Qed.
Lemma intPlan_play : forall ty min max, ~ (min = tmin ty /\ max = tmax ty) -> forall E (r : rst E), interval ty min max r = play (intPlan ty min max) r.
Proof.
  intros ty min max Hf E r. unfold interval, generateInteger, intPlan.
  assert (Hb : (min =? tmin ty)%Z && (max =? tmax ty)%Z = false) by (apply andb_false_iff; rewrite !Z.eqb_neq; destruct (Z.eq_dec min (tmin ty)); tauto).
  rewrite Hb, play_then. set (K := fun value : Z => _). unfold gbind. unfold gret.
  pose proof (picked_fits E ty min max r) as Hp. rewrite seen_same in Hp. rewrite Hp.
  destruct (play (picked ty min max) r) as [[v q]| | |]; try reflexivity. subst K. cbn beta. apply intTail_play.
Qed.
Lemma picked_mean : forall ty min max f, (tmin ty <= min)%Z -> (min <= max)%Z -> (max <= tmax ty)%Z -> ~ reversed_char ty min max ->
  ends (fun v => (min <= v <= max)%Z) (picked ty min max) /\ mean (picked ty min max) f == average min max (fun v => f (Ok v)).
Proof.
  intros ty min max f H1 H2 H3 Hc.
  assert (G : let p := Draws (castT ty min) (castT ty max) (fun u => Ends (Ok (castT ty u))) in ends (fun v => (min <= v <= max)%Z) p /\ mean p f == average min max (fun v => f (Ok v))).
  { cbn zeta. rewrite !castT_small by lia. split.
    - cbn [ends]. split; [auto|]. intros z Hz. rewrite castT_small by lia. auto.
    - cbn [mean]. rewrite (proj2 (Z.leb_le min max) H2). apply average_ext. intros z Hz. rewrite castT_small by lia. reflexivity. }
  destruct ty; try exact G. clear G. cbn [picked]. unfold reversed_char in Hc.
  change (tmin TChar) with (-128)%Z in *. change (tmax TChar) with 127%Z in *.
  assert (Hcase : (0 <= min \/ max < 0)%Z) by (destruct (Z_lt_le_dec max 0); [lia|]; destruct (Z_lt_le_dec min 0); [exfalso; apply Hc; auto|lia]).
  assert (C : forall x, (-128 <= x <= 127)%Z -> castT TChar x = x) by (intros x Hx; apply castT_small; exact Hx).
  cbn [mean ends]. destruct Hcase as [Hn|Hn].
  - rewrite !wrapU_small by (simpl; lia). rewrite (proj2 (Z.leb_le min max) H2). split.
    + split; [auto|]. intros z Hz. rewrite C by lia. auto.
    + apply average_ext. intros z Hz. rewrite C by lia. reflexivity.
  - assert (Hw : forall x, (-128 <= x < 0 -> wrapU 8 x = x + 256)%Z).
    { intros x Hx. unfold wrapU. change (2 ^ 8)%Z with 256%Z. symmetry. apply Z.mod_unique with (-1)%Z; lia. }
    assert (Hd : forall z, (min <= z <= max)%Z -> castT TChar (z + 256) = z).
    { intros z Hz. symmetry. rewrite <- (C z) at 1 by lia. apply castT_mod. replace (z - (z + 256))%Z with (-256)%Z by lia. reflexivity. }
    rewrite !Hw by lia. destruct (Z.leb_spec (min + 256) (max + 256)); [|lia]. split.
    + split; [lia|]. intros z Hz. replace z with (z - 256 + 256)%Z by lia. rewrite Hd by lia. lia.
    + rewrite average_shift. apply average_ext. intros z Hz. rewrite Hd by lia. reflexivity.
Qed.
Lemma intTail_ok : forall ty min max v, (tmin ty <= min)%Z -> (max <= tmax ty)%Z -> (min <= v <= max)%Z ->
  exists t, intTail ty min max v = Ok t /\ root t = v /\ all_values (fun x => (min <= x <= max)%Z) t.
Proof.
  intros ty min max v H1 H2 Hv. destruct (gi_shrink_tail replay ty min max v ([] : rst replay) H1 H2 Hv) as (t & Et & Hr & Hg).
  rewrite intTail_play in Et. destruct (intTail ty min max v) as [t'| | |]; try discriminate. injection Et as ->. exists t. split; auto. split; auto.
  apply SupportProof.good_within. auto.
Qed.
Lemma intPlan_mean : forall ty min max f, (tmin ty <= min)%Z -> (min <= max)%Z -> (max <= tmax ty)%Z -> ~ reversed_char ty min max ->
  ends (all_values (fun v => (min <= v <= max)%Z)) (intPlan ty min max) /\
  mean (intPlan ty min max) (fun x => match x with Ok t => f (root t) | _ => 0 end) == average min max f.
Proof.
  intros ty min max f H1 H2 H3 Hc. unfold intPlan.
  destruct (picked_mean ty min max (fun x => match x with Ok v => f v | _ => 0 end) H1 H2 H3 Hc) as [He Hm]. split.
  - eapply ends_then; [exact He|]. intros v Hv. destruct (intTail_ok ty min max v H1 H3 Hv) as (t & -> & _ & Ht). exact Ht.
  - rewrite mean_then. rewrite <- Hm. eapply mean_ends; [exact He|]. intros v Hv. cbn [over mean].
    destruct (intTail_ok ty min max v H1 H3 Hv) as (t & -> & -> & Ht). reflexivity.
Qed.

Fixpoint ptimes {A} (n : nat) (p : plan A) : plan (list A) :=
  match n with O => Ends (Ok []) | S n' => pthen (fun x => pthen (fun xs => Ends (Ok (x :: xs))) (ptimes n' p)) p end.
Lemma gbind_ext' : forall E A B (g g' : G E A) (k k' : A -> G E B) r, (forall r, g r = g' r) -> (forall a r, k a r = k' a r) -> gbind g k r = gbind g' k' r.
Proof. intros * H Hk. unfold gbind. rewrite H. destruct (g' r) as [[a q]| | |]; auto. Qed.
Lemma ptimes_play : forall E A (g : G E A) p, (forall r, g r = play p r) -> forall n r, times n g r = play (ptimes n p) r.
Proof.
  intros E A g p H. induction n as [|n IH]; intros r; cbn [times ptimes]; [reflexivity|]. rewrite play_then. apply gbind_ext'; [exact H|].
  intros a r1. rewrite play_then. apply gbind_ext'; [exact IH|]. reflexivity.
Qed.
Lemma ptimes_ends : forall A (P : A -> Prop) p, ends P p -> forall n, ends (fun l => length l = n /\ Forall P l) (ptimes n p).
Proof.
  intros A P p H. induction n as [|n IH]; cbn [ptimes]; [cbn; auto|]. eapply ends_then; [exact H|]. intros a Ha. eapply ends_then; [exact IH|].
  intros l [Hl Hf]. cbn. split; auto.
Qed.
Definition vecPlan {A} (mn mx : Z) (p : plan (tree A)) : plan (tree (list A)) :=
  Draws mn mx (fun n => pthen (fun vec => Ends (shrinkListLike vec mn true)) (ptimes (Z.to_nat n) p)).
Lemma vecPlan_play : forall A mn mx (p : plan (tree A)), (0 <= mn)%Z -> (mn <= mx)%Z -> (mx <= UINT32_MAX)%Z -> forall E (g : gen E A), (forall r, g r = play p r) ->
  forall r, arbi_vector g {| minSize := mn; maxSize := mx |} r = play (vecPlan mn mx p) r.
Proof.
  intros A mn mx p H0 H1 H2 E g Hg r. unfold arbi_vector. unfold gbind at 1. rewrite containerSize_eq by auto. cbn [vecPlan play minSize].
  unfold draw. rewrite (proj2 (Z.leb_le mn mx) H1). destruct (unif E mn mx r) as [n r1]. cbn [fst snd]. rewrite play_then.
  apply gbind_ext'; [apply ptimes_play; exact Hg|]. intros vec r2. unfold gfail. cbn [play]. destruct (shrinkListLike vec mn true); reflexivity.
Qed.
Lemma sublists_in : forall A (l s : list A) x, In s (sublists l) -> In x s -> In x l.
Proof.
  intros A l. induction l as [|a l IH]; intros s x Hs Hx; cbn [sublists] in Hs.
  - destruct Hs as [<-|[]]. contradiction.
  - apply in_app_iff in Hs. destruct Hs as [Hs|Hs]; [|right; eauto]. apply in_map_iff in Hs. destruct Hs as (s' & <- & Hs'). destruct Hx as [->|Hx]; [left; auto|right; eauto].
Qed.
Lemma vec_tree : forall A (V : A -> Prop) mn (vec : list (tree A)), (0 <= mn)%Z -> (mn <= size vec <= UINT32_MAX)%Z -> Forall (all_values V) vec ->
  exists t, shrinkListLike vec mn true = Ok t /\ root t = map root vec /\ all_values (fits_size mn (size vec) V) t.
Proof.
  intros A V mn vec H0 Hs Hv. destruct (PropList.C13_list_sound A vec (Z.to_nat mn) true) as [t [E1 [E2 E3]]]; [apply u32_int64; lia|unfold size in *; lia|].
  rewrite Z2Nat.id in E1 by auto. exists t. split; auto. split; auto. intros s Hs0. apply E3 in Hs0. destruct Hs0 as [B [sub [Hsub HF]]].
  split; [unfold size in *; lia|]. rewrite Forall_forall in *. intros x Hx.
  assert (K : exists e, In e sub /\ In x (values e)).
  { clear - HF Hx. induction HF as [|e y l l' Hy HF IH]; [contradiction|]. destruct Hx as [->|Hx]; [exists e; split; [left|]; auto|]. destruct (IH Hx) as (e' & A1 & A2). exists e'. split; [right|]; auto. }
  destruct K as (e & He & Hin). assert (He' : In e vec) by (eapply sublists_in; eauto). specialize (Hv e He'). apply all_values_values in Hv. rewrite Forall_forall in Hv. auto.
Qed.
Lemma vecPlan_ends : forall A (V : A -> Prop) mn mx (p : plan (tree A)), (0 <= mn)%Z -> (mn <= mx)%Z -> (mx <= UINT32_MAX)%Z -> ends (all_values V) p ->
  ends (all_values (fits_size mn mx V)) (vecPlan mn mx p).
Proof.
  intros A V mn mx p H0 H1 H2 Hp. cbn [vecPlan ends]. split; [auto|]. intros n Hn. eapply ends_then; [apply ptimes_ends; exact Hp|]. intros vec [Hl Hv].
  assert (Hs : size vec = n) by (unfold size; lia). destruct (vec_tree A V mn vec H0 ltac:(lia) Hv) as (t & -> & _ & Ht). cbn [ends]. intros s Hs'. apply Ht in Hs'. destruct Hs' as [X Y]. split; [lia|auto].
Qed.

(** ** Means *)
Lemma calm_mono : forall A (V W : A -> Prop), (forall a, V a -> W a) -> (forall t, calm V t -> calm W t) /\ (forall s, calm_s V s -> calm_s W s).
Proof.
  intros A V W H. apply ptree_ind2.
  - intros a q IH [Ha Hq]. split; [auto|]. eapply ends_leaf; eauto.
  - auto.
  - intros h q IHh IH [Hh Hq]. split; [auto|]. eapply ends_leaf; eauto.
Qed.
Lemma expect_ext : forall A (V : A -> Prop) p f g, ends (calm V) p -> (forall a, V a -> f a == g a) -> expect p f == expect p g.
Proof. intros A V p f g H Hf. eapply mean_ends; [exact H|]. intros t Ht. apply Hf. apply calm_root. auto. Qed.
Lemma obeys_weaken : forall A (V W : A -> Prop) g p, obeys V g p -> (forall a, V a -> W a) -> obeys W g p.
Proof. intros A V W g p [H1 H2] H. split; [auto|]. eapply ends_mono; [exact H2|]. apply calm_mono. auto. Qed.
Lemma obeys_unique : forall A (V V' : A -> Prop) g p p' f, obeys V g p -> obeys V' g p' -> expect p f == expect p' f.
Proof.
  intros A V V' g p p' f [H1 H2] [H3 H4].
  assert (K : forall (q : plan (ptree A)), expect q f == mean (pthen (fun t => Ends (Ok (proot t))) q) (fun x => match x with Ok a => f a | _ => 0 end)).
  { intros q. unfold expect. rewrite mean_then. apply mean_ext. intros [t| | |]; reflexivity. }
  rewrite !K. apply (mean_unique _ _ _ []). intros s. unfold out. rewrite !play_then. unfold gbind.
  specialize (H1 (chosen_by s) []). specialize (H3 (chosen_by s) []). destruct (g (chosen_by s) []) as [[t q]| | |].
  - destruct H1 as (y & -> & Hy), H3 as (y' & -> & Hy'). cbn [play result]. apply acts_root in Hy. apply acts_root in Hy'. congruence.
  - rewrite H1, H3. reflexivity.
  - rewrite H1, H3. reflexivity.
  - rewrite H1, H3. reflexivity.
Qed.

(** ** Combinators *)
Section Combinators.
  Context {T U : Type} (V : T -> Prop) (V2 : T -> U -> Prop) (g1 : forall E, egen E T) (g2 : forall E, T -> egen E U) (p1 : plan (ptree T)) (p2 : T -> plan (ptree U)).
  Hypothesis O1 : obeys V g1 p1.
  Hypothesis O2 : forall a, V a -> obeys (V2 a) (fun E => g2 E a) (p2 a).
  Lemma dependent_obeys : forall W (V3 : W -> Prop) (fin : forall E, T * etree E U -> etree E W) pfin,
    (forall E x y, both x y -> acts eq (fin E x) (pfin y)) -> (forall y, within V V2 y -> calm V3 (pfin y)) ->
    obeys V3 (fun E => dependent (g1 E) (g2 E) (fin E)) (pdependent p1 p2 pfin).
  Proof.
    intros W V3 fin pfin Hf Hc. split.
    - intros E. apply (dependent_acts V V2 V3); auto.
      + apply O1.
      + intros a Ha. apply O2. auto.
      + apply O1.
      + intros a Ha. apply O2. auto.
    - apply (dependent_calm V V2 V3); auto; [apply O1|]. intros a Ha. apply O2. auto.
  Qed.
  Lemma dependent_expect : forall W (V3 : W -> Prop) (pfin : T * ptree U -> ptree W) (h : T -> U -> W) f,
    (forall y, within V V2 y -> calm V3 (pfin y)) -> (forall a u, proot (pfin (a, u)) = h a (proot u)) ->
    expect (pdependent p1 p2 pfin) f == expect p1 (fun a => expect (p2 a) (fun b => f (h a b))).
  Proof.
    intros W V3 pfin h f Hc Hh. rewrite (dependent_mean V V2).
    - eapply expect_ext; [apply O1|]. intros a Ha. apply mean_ext. intros [u| | |]; try reflexivity. rewrite Hh. reflexivity.
    - apply O1.
    - intros a Ha. apply O2. auto.
  Qed.
  Lemma dependency_chance : exists p, obeys (fun y => V (fst y) /\ V2 (fst y) (snd y)) (fun E => dependency (g1 E) (g2 E)) p /\
    forall f, expect p f == expect p1 (fun a => expect (p2 a) (fun b => f (a, b))).
  Proof.
    assert (Hc : forall y, within V V2 y -> calm (fun y => V (fst y) /\ V2 (fst y) (snd y)) (pmake (fst y, proot (snd y)))).
    { intros [a u] [Ha Hu]. apply calm_make. split; [auto|]. apply calm_root in Hu. auto. }
    exists (pdependent p1 p2 (fun y => pmake (fst y, proot (snd y)))). split.
    - apply (dependent_obeys _ _ (fun E p => emake (fst p, eroot (snd p)))); auto.
      intros E [a u] [b w] [Hab Hu]. cbn [fst snd] in *. apply acts_make. f_equal; auto. apply acts_root in Hu. auto.
    - intros f. apply (dependent_expect _ _ _ (fun a b => (a, b)) f Hc). reflexivity.
  Qed.
  Lemma derive_chance : exists p, obeys (fun b => exists a, V a /\ V2 a b) (fun E => derive (g1 E) (g2 E)) p /\
    forall f, expect p f == expect p1 (fun a => expect (p2 a) f).
  Proof.
    assert (Hc : forall y, within V V2 y -> calm (fun b => exists a, V a /\ V2 a b) (snd y)).
    { intros [a u] [Ha Hu]. revert Hu. apply calm_mono. eauto. }
    exists (pdependent p1 p2 snd). split.
    - apply (dependent_obeys _ _ (fun E => snd)); auto. intros E x y [_ H]. exact H.
    - intros f. apply (dependent_expect _ _ _ (fun a b => b) f Hc). reflexivity.
  Qed.
End Combinators.
Lemma chain_chance : forall A (V : A -> Prop) (V2 : A -> A -> Prop) (g1 : forall E, egen E A) (g2 : forall E, A -> egen E A) p1 p2,
  obeys V g1 p1 -> (forall a, V a -> obeys (V2 a) (fun E => g2 E a) (p2 a)) ->
  exists p, obeys (fun l => exists a b, l = [a; b] /\ V a /\ V2 a b) (fun E => chain (g1 E) (g2 E)) p /\
    forall f, expect p f == expect p1 (fun a => expect (p2 a) (fun b => f [a; b])).
Proof.
  intros * O1 O2.
  assert (Hc : forall y, within V V2 y -> calm (fun l => exists a b, l = [a; b] /\ V a /\ V2 a b) (pmake [fst y; proot (snd y)])).
  { intros [a u] [Ha Hu]. apply calm_make. apply calm_root in Hu. exists a, (proot u). auto. }
  exists (pdependent p1 p2 (fun y => pmake [fst y; proot (snd y)])). split.
  - apply (dependent_obeys V V2 g1 g2 p1 p2 O1 O2 _ _ (fun E p => emake [fst p; eroot (snd p)])); auto.
    intros E [a u] [b w] [Hab Hu]. cbn [fst snd] in *. apply acts_make. apply acts_root in Hu. congruence.
  - intros f. apply (dependent_expect V V2 g1 g2 p1 p2 O1 O2 _ _ _ (fun a b => [a; b]) f Hc). reflexivity.
Qed.
Lemma chainMore_chance : forall A (V : list A -> Prop) (V2 : list A -> A -> Prop) (g1 : forall E, egen E (list A)) (g2 : forall E, list A -> egen E A) p1 p2,
  obeys V g1 p1 -> (forall a, V a -> obeys (V2 a) (fun E => g2 E a) (p2 a)) ->
  exists p, obeys (fun l => exists a b, l = a ++ [b] /\ V a /\ V2 a b) (fun E => chainMore (g1 E) (g2 E)) p /\
    forall f, expect p f == expect p1 (fun a => expect (p2 a) (fun b => f (a ++ [b]))).
Proof.
  intros * O1 O2.
  assert (Hc : forall y, within V V2 y -> calm (fun l => exists a b, l = a ++ [b] /\ V a /\ V2 a b) (pmake (fst y ++ [proot (snd y)]))).
  { intros [a u] [Ha Hu]. apply calm_make. apply calm_root in Hu. exists a, (proot u). auto. }
  exists (pdependent p1 p2 (fun y => pmake (fst y ++ [proot (snd y)]))). split.
  - apply (dependent_obeys V V2 g1 g2 p1 p2 O1 O2 _ _ (fun E p => emake (fst p ++ [eroot (snd p)]))); auto.
    intros E [a u] [b w] [Hab Hu]. cbn [fst snd] in *. apply acts_make. apply acts_root in Hu. congruence.
  - intros f. apply (dependent_expect V V2 g1 g2 p1 p2 O1 O2 _ _ _ (fun a b => a ++ [b]) f Hc). reflexivity.
Qed.

(** ** Integers as sizes *)
Lemma interval_chance : forall ty min max, (tmin ty <= min)%Z -> (min <= max)%Z -> (max <= tmax ty)%Z -> ~ reversed_char ty min max -> ~ (min = tmin ty /\ max = tmax ty) ->
  exists p, obeys (fun v => (min <= v <= max)%Z) (fun E => liftGen (interval ty min max)) p /\ forall f, expect p f == average min max f.
Proof.
  intros ty min max H1 H2 H3 Hc Hf. eexists. split.
  - apply obeys_lift; [intros E r; apply intPlan_play; exact Hf|]. apply (intPlan_mean ty min max (fun _ => 0)); auto.
  - intros f. destruct (intPlan_mean ty min max f H1 H2 H3 Hc) as [He Hm]. rewrite <- Hm. eapply expect_lift. exact He.
Qed.

Lemma sizes_chance : forall mn mx, (0 <= mn)%Z -> (mn <= mx)%Z -> (mx < UINT64_MAX)%Z ->
  exists p, obeys (fun v => (mn <= v <= mx)%Z) (fun E => liftGen (interval TU64 mn mx)) p /\ forall f, expect p f == average mn mx f.
Proof.
  intros mn mx M0 M1 M2. apply interval_chance; [exact M0|exact M1|change (tmax TU64) with UINT64_MAX; lia| |].
  - intros [C _]. discriminate C.
  - change (tmax TU64) with UINT64_MAX. lia.
Qed.

(** ** aggregate *)
Fixpoint paggregateSteps {A} (n : nat) (p2 : A -> plan (ptree A)) (t : ptree A) : plan (ptree A) :=
  match n with O => Ends (Ok t) | S n' => pthen (paggregateSteps n' p2) (p2 (proot t)) end.
Section Steps.
  Context {A : Type} (V : A -> Prop) (p2 : A -> plan (ptree A)).
  Hypothesis H2 : forall a, V a -> ends (calm V) (p2 a).
  Lemma aggregateSteps_calm : forall n t, calm V t -> ends (calm V) (paggregateSteps n p2 t).
  Proof.
    induction n as [|n IH]; intros t Ht; cbn [paggregateSteps]; [exact Ht|]. eapply ends_then; [apply H2; apply calm_root; exact Ht|]. exact IH.
  Qed.
  Lemma aggregateSteps_mean : forall f n t, calm V t -> expect (paggregateSteps n p2 t) f == walk p2 n f (proot t).
  Proof.
    intros f. induction n as [|n IH]; intros t Ht; cbn [paggregateSteps walk]; [reflexivity|]. unfold expect. rewrite mean_then.
    eapply mean_ends; [apply H2; apply calm_root; exact Ht|]. intros u Hu. cbn [over]. apply IH. exact Hu.
  Qed.
  Context {E : engine} (g2 : A -> egen E A).
  Hypothesis R2 : forall a, V a -> runs (acts eq) (g2 a) (p2 a).
  Lemma aggregateSteps_acts : forall n t p, acts eq t p -> calm V p -> runs (acts eq) (aggregateSteps n g2 t) (paggregateSteps n p2 p).
  Proof.
    induction n as [|n IH]; intros t p Ht Hp; cbn [aggregateSteps paggregateSteps]; [apply runs_ret; exact Ht|].
    rewrite (acts_root _ _ _ _ _ _ Ht). eapply runs_bind; [apply R2; apply calm_root; exact Hp|apply H2; apply calm_root; exact Hp|].
    intros _ x y _ _ Hxy Hy. apply IH; auto.
  Qed.
End Steps.
Lemma walk_ext : forall A (V : A -> Prop) p2, (forall a, V a -> ends (calm V) (p2 a)) -> forall n f g, (forall a, V a -> f a == g a) -> forall a, V a -> walk p2 n f a == walk p2 n g a.
Proof.
  intros A V p2 H2. induction n as [|n IH]; intros f g Hfg a Ha; cbn [walk]; [auto|]. eapply expect_ext; [apply H2; exact Ha|]. intros b Hb. apply IH; auto.
Qed.
Lemma aggregate_chance : forall A (V : A -> Prop) (g1 : forall E, egen E A) (g2 : forall E, A -> egen E A) p1 p2 mn mx,
  obeys V g1 p1 -> (forall a, V a -> obeys V (fun E => g2 E a) (p2 a)) -> (0 <= mn)%Z -> (mn <= mx)%Z -> (mx < UINT64_MAX)%Z ->
  exists p, obeys V (fun E => aggregate (g1 E) (g2 E) mn mx) p /\
    forall f, expect p f == average mn mx (fun n => expect p1 (walk p2 (Z.to_nat n) f)).
Proof.
  intros * O1 O2 M0 M1 M2.
  destruct (sizes_chance mn mx M0 M1 M2) as (ps & Os & Hs).
  assert (O3 : forall n, (mn <= n <= mx)%Z -> obeys V (fun E => gbind (g1 E) (fun shr => aggregateSteps (Z.to_nat n) (g2 E) shr)) (pthen (paggregateSteps (Z.to_nat n) p2) p1)).
  { intros n _. split.
    - intros E. eapply runs_bind; [apply O1|apply O1|]. intros _ x y _ _ Hxy Hy. apply (aggregateSteps_acts V); auto; intros a Ha; apply O2; auto.
    - eapply ends_then; [apply O1|]. intros t Ht. apply aggregateSteps_calm; auto. intros a Ha. apply O2. auto. }
  destruct (derive_chance _ _ _ _ _ _ Os O3) as (p & Op & Hp). exists p. split.
  - eapply obeys_weaken; [exact Op|]. intros b (a & _ & Hb). exact Hb.
  - intros f. rewrite Hp, Hs. apply average_ext. intros n Hn. unfold expect at 1. rewrite mean_then. eapply mean_ends; [apply O1|]. intros t Ht. cbn [over].
    apply (aggregateSteps_mean V); auto. intros a Ha. apply O2. auto.
Qed.

(** ** accumulate *)
Fixpoint pemap {A B} (f : A -> B) (t : ptree A) {struct t} : ptree B :=
  match t with PNode a q => PNode (f a) (pthen (fun s => Ends (Ok (pemap_s f s))) q) end
with pemap_s {A B} (f : A -> B) (s : pstream A) {struct s} : pstream B :=
  match s with PNil => PNil | PCons h q => PCons (pemap f h) (pthen (fun s' => Ends (Ok (pemap_s f s'))) q) end.
Lemma pemap_calm : forall A B (V : A -> Prop) (W : B -> Prop) f, (forall a, V a -> W (f a)) ->
  (forall t, calm V t -> calm W (pemap f t)) /\ (forall s, calm_s V s -> calm_s W (pemap_s f s)).
Proof.
  intros * H. apply ptree_ind2.
  - intros a q IH [Ha Hq]. cbn [pemap]. split; [auto|]. eapply ends_then with (P := fun s => calm_s W (pemap_s f s)); [|auto]. eapply ends_leaf; eauto.
  - auto.
  - intros h q IHh IH [Hh Hq]. cbn [pemap_s]. split; [auto|]. eapply ends_then with (P := fun s => calm_s W (pemap_s f s)); [|auto]. eapply ends_leaf; eauto.
Qed.
Lemma emap_acts : forall E A B C D (R : A -> B -> Prop) (Q : C -> D -> Prop) (V : B -> Prop) (f : A -> C) f', (forall a b, R a b -> Q (f a) (f' b)) ->
  (forall (t : etree E A) p, acts R t p -> calm V p -> acts Q (emap f t) (pemap f' p)) /\
  (forall (s : estream E A) p, acts_s R s p -> calm_s V p -> acts_s Q (emap_s f s) (pemap_s f' p)).
Proof.
  intros * H.
  apply (etree_ind3 E A (fun t => forall p, acts R t p -> calm V p -> acts Q (emap f t) (pemap f' p))
                        (fun s => forall p, acts_s R s p -> calm_s V p -> acts_s Q (emap_s f s) (pemap_s f' p))).
  - intros a shr IH [b q] [Hab Hr] [Hb Hq]. cbn [emap pemap]. split; [auto|]. eapply runs_bind; [exact Hr|exact Hq|].
    intros; apply runs_ret; eapply IH; eauto.
  - intros [|h q] Hs _; [exact I|contradiction].
  - intros h tl IHh IH [|h' q] Hs Hc; [contradiction|]. destruct Hs as [Hh Ht], Hc as [Hch Hct]. cbn [emap_s pemap_s]. split; [auto|].
    eapply runs_bind; [exact Ht|exact Hct|]. intros; apply runs_ret; eapply IH; eauto.
Qed.
Lemma pemap_root : forall A B (f : A -> B) t, proot (pemap f t) = f (proot t).
Proof. intros A B f [a q]. reflexivity. Qed.

Fixpoint paccumulateSteps {A} (n : nat) (p2 : A -> plan (ptree A)) (t : ptree A) : plan (list (ptree A)) :=
  match n with O => Ends (Ok [t]) | S n' => pthen (fun t' => pthen (fun l => Ends (Ok (t :: l))) (paccumulateSteps n' p2 t')) (p2 (proot t)) end.
Fixpoint plastShrinks {A} (vec : list (ptree A)) (s : pstream A) : pstream (list (ptree A)) :=
  match s with PNil => PNil | PCons h q => PCons (pmake (removelast vec ++ [h])) (pthen (fun s' => Ends (Ok (plastShrinks vec s'))) q) end.
Definition pshrinkLast {A} (parent : ptree (list (ptree A))) : plan (pstream (list (ptree A))) :=
  match rev (proot parent) with [] => Ends (Ok PNil) | lst :: _ => pthen (fun s => Ends (Ok (plastShrinks (proot parent) s))) (pshr lst) end.
Definition paccumulated {A} (mn n : Z) (p1 : plan (ptree A)) (p2 : A -> plan (ptree A)) : plan (ptree (list A)) :=
  if (n =? 0)%Z then Ends (Ok (pmake []))
  else pthen (fun t => pthen (fun vec => pthen (fun lens => pthen (fun t => Ends (Ok (pemap (map proot) t))) (pandThen pshrinkLast (plift lens)))
              (Ends (shrinkListLikeLength vec mn))) (paccumulateSteps (Z.to_nat n - 1) p2 t)) p1.

Definition kept {A} (mn n : Z) (V : A -> Prop) : list (ptree A) -> Prop := fits_size mn n (calm V).
Lemma removelast_length : forall A (l : list A) x, l <> [] -> length (removelast l ++ [x]) = length l.
Proof. intros A l x H. rewrite app_length. cbn [length]. rewrite (app_removelast_last x H) at 2. rewrite app_length. reflexivity. Qed.
Lemma removelast_Forall : forall A (P : A -> Prop) l, Forall P l -> Forall P (removelast l).
Proof. induction 1 as [|a l H Hl IH]; cbn; auto. destruct l; auto. Qed.
Lemma lastShrinks_calm : forall A (V : A -> Prop) mn n vec, vec <> [] -> kept mn n V vec ->
  forall s, calm_s V s -> calm_s (kept mn n V) (plastShrinks vec s).
Proof.
  intros A V mn n vec Hne [Hl Hv].
  assert (K : (forall t : ptree A, True) /\ forall s, calm_s V s -> calm_s (kept mn n V) (plastShrinks vec s)); [|exact (proj2 K)].
  apply (ptree_ind2 A (fun _ => True) (fun s => calm_s V s -> calm_s (kept mn n V) (plastShrinks vec s))); auto.
  intros h q _ IH [Hh Hq]. cbn [plastShrinks]. split.
  - apply calm_make. split; [rewrite removelast_length by auto; exact Hl|]. apply Forall_app. split; [apply removelast_Forall; auto|auto].
  - eapply ends_then with (P := fun s => calm_s (kept mn n V) (plastShrinks vec s)); [|auto]. eapply ends_leaf; eauto.
Qed.
Lemma shrinkLast_calm : forall A (V : A -> Prop) mn n t, calm (kept mn n V) t -> ends (calm_s (kept mn n V)) (pshrinkLast t).
Proof.
  intros A V mn n t Ht. apply calm_root in Ht. unfold pshrinkLast. destruct (rev (proot t)) as [|lst l] eqn:Er; [exact I|].
  assert (Hin : In lst (proot t)) by (apply in_rev; rewrite Er; left; auto).
  assert (Hl : calm V lst) by (destruct Ht as [_ Ht]; rewrite Forall_forall in Ht; auto).
  eapply ends_then; [apply calm_shr; exact Hl|]. intros s Hs. cbn [ends]. apply lastShrinks_calm; auto. intros C. rewrite C in Hin. contradiction.
Qed.
Lemma accumulateSteps_calm : forall A (V : A -> Prop) p2, (forall a, V a -> ends (calm V) (p2 a)) ->
  forall n t, calm V t -> ends (fun l => length l = S n /\ Forall (calm V) l) (paccumulateSteps n p2 t).
Proof.
  intros A V p2 H2. induction n as [|n IH]; intros t Ht; cbn [paccumulateSteps]; [cbn; auto|].
  eapply ends_then; [apply H2; apply calm_root; exact Ht|]. intros t' Ht'. eapply ends_then; [apply IH; exact Ht'|]. intros l [Hl Hf]. cbn. auto.
Qed.
Lemma accumulateSteps_mean : forall A (V : A -> Prop) p2, (forall a, V a -> ends (calm V) (p2 a)) ->
  forall n f t, calm V t -> mean (paccumulateSteps n p2 t) (fun x => match x with Ok l => f (map proot l) | _ => 0 end) == trail p2 n f (proot t).
Proof.
  intros A V p2 H2. induction n as [|n IH]; intros f t Ht; cbn [paccumulateSteps trail]; [reflexivity|].
  rewrite mean_then. unfold expect. eapply mean_ends; [apply H2; apply calm_root; exact Ht|]. intros u Hu. cbn [over]. rewrite mean_then.
  rewrite <- (IH (fun l => f (proot t :: l)) u Hu). eapply mean_ends; [apply accumulateSteps_calm; eauto|]. intros l _. cbn [over mean map]. reflexivity.
Qed.
Lemma lens_calm : forall A (V : A -> Prop) mn n (vec : list (ptree A)), (0 <= mn)%Z -> (size vec <= INT64_MAX)%Z -> kept mn n V vec ->
  exists t, shrinkListLikeLength vec mn = Ok t /\ root t = vec /\ calm (kept mn n V) (plift t).
Proof.
  intros A V mn n vec H0 Hs [Hl Hv]. destruct (length_ok _ vec (Z.to_nat mn) Hs ltac:(lia)) as (t & Et & Hr & Hp). rewrite Z2Nat.id in Et by auto.
  exists t. split; auto. split; auto. apply plift_calm. apply all_values_values. rewrite Forall_forall. intros v Hin. apply (Permutation_in _ Hp) in Hin.
  unfold prefixes_min in Hin. apply in_map_iff in Hin. destruct Hin as (k & <- & Hk). apply in_seq in Hk. split.
  - rewrite firstn_length. lia.
  - rewrite Forall_forall in *. intros x Hx. apply Hv. rewrite <- (firstn_skipn k vec). apply in_app_iff. auto.
Qed.
Lemma accumulated_calm : forall A (V : A -> Prop) p1 p2 mn n, (0 <= mn <= n)%Z -> (n <= INT64_MAX)%Z -> ends (calm V) p1 -> (forall a, V a -> ends (calm V) (p2 a)) ->
  ends (calm (fits_size mn n V)) (paccumulated mn n p1 p2).
Proof.
  intros A V p1 p2 mn n Hn Hx H1 H2. unfold paccumulated. destruct (Z.eqb_spec n 0) as [->|Hn0].
  { apply calm_make. split; [cbn; lia|auto]. }
  eapply ends_then; [exact H1|]. intros t Ht. eapply ends_then; [apply accumulateSteps_calm; eassumption|]. intros vec [Hl Hv].
  assert (Hk : kept mn n V vec) by (split; [lia|auto]). destruct (lens_calm A V mn n vec ltac:(lia) ltac:(unfold size; lia) Hk) as (lens & -> & _ & Hc).
  cbn [pthen]. eapply ends_then; [apply (proj1 (pandThen_calm _ _ _ (shrinkLast_calm A V mn n))); exact Hc|]. intros u Hu. cbn [ends].
  revert Hu. apply pemap_calm. intros l [Hl' Hf]. split; [rewrite map_length; auto|]. apply Forall_map. eapply Forall_impl; [|exact Hf]. intros x. apply calm_root.
Qed.
Lemma accumulated_mean : forall A (V : A -> Prop) p1 p2 mn n f, (0 <= mn <= n)%Z -> (n <= INT64_MAX)%Z -> ends (calm V) p1 -> (forall a, V a -> ends (calm V) (p2 a)) ->
  expect (paccumulated mn n p1 p2) f == if (n =? 0)%Z then f [] else expect p1 (trail p2 (Z.to_nat n - 1) f).
Proof.
  intros A V p1 p2 mn n f Hn Hx H1 H2. unfold paccumulated. destruct (Z.eqb_spec n 0) as [->|Hn0]; [reflexivity|].
  unfold expect at 1. rewrite mean_then. unfold expect. eapply mean_ends; [exact H1|]. intros t Ht. cbn [over]. rewrite mean_then.
  rewrite <- (accumulateSteps_mean A V p2 H2 _ f t Ht). eapply mean_ends; [apply accumulateSteps_calm; eassumption|]. intros vec [Hl Hv]. cbn [over].
  assert (Hk : kept mn n V vec) by (split; [lia|auto]). destruct (lens_calm A V mn n vec ltac:(lia) ltac:(unfold size; lia) Hk) as (lens & -> & Hr & Hc).
  cbn [pthen]. rewrite mean_then. eapply mean_ends_const; [eapply pandThen_root; exact Hc|]. intros u Hu. cbn [over mean]. rewrite pemap_root, Hu, plift_root, Hr. reflexivity.
Qed.
Section Accumulate.
  Context {E : engine} {A : Type} (V : A -> Prop) (mn n : Z).
  Lemma accumulateSteps_acts : forall (g2 : A -> egen E A) p2, (forall a, V a -> ends (calm V) (p2 a)) -> (forall a, V a -> runs (acts eq) (g2 a) (p2 a)) ->
    forall k t p, acts eq t p -> calm V p -> runs (Forall2 (acts eq)) (accumulateSteps k g2 t) (paccumulateSteps k p2 p).
  Proof.
    intros g2 p2 H2 R2. induction k as [|k IH]; intros t p Ht Hp; cbn [accumulateSteps paccumulateSteps]; [apply runs_ret; auto|].
    rewrite (acts_root _ _ _ _ _ _ Ht). eapply runs_bind; [apply R2; apply calm_root; exact Hp|apply H2; apply calm_root; exact Hp|].
    intros _ x y _ _ Hxy Hy. eapply runs_bind; [apply IH; eassumption|eapply accumulateSteps_calm; eassumption|]. intros _ l l' _ _ Hl _. apply runs_ret. auto.
  Qed.
  Lemma lens_acts : forall (vec : list (etree E A)) vec' m, Forall2 (acts eq) vec vec' ->
    runs (fun t t' => acts (Forall2 (acts eq)) (@elift E _ t) (plift t')) (@gfail E _ (shrinkListLikeLength vec m)) (Ends (shrinkListLikeLength vec' m)).
  Proof.
    intros vec vec' m H. apply ErasureEffProof.zipped in H. destruct H as (L & -> & ->). rewrite !ErasureEffProof.length_rename.
    destruct (shrinkListLikeLength L m) as [t| | |]; cbn [ErasureSpec.result]; intros r; cbn [play gfail]; auto.
    eexists. split; [reflexivity|]. apply lift_acts. intros l. induction l as [|[p Hp] l IH]; cbn; auto.
  Qed.
  Lemma lastShrinks_acts : forall (vec : list (etree E A)) vec', Forall2 (acts eq) vec vec' ->
    forall s p, acts_s eq s p -> calm_s V p -> acts_s (Forall2 (acts eq)) (lastShrinks vec s) (plastShrinks vec' p).
  Proof.
    intros vec vec' H.
    assert (K : (forall t : etree E A, True) /\ forall s p, acts_s eq s p -> calm_s V p -> acts_s (Forall2 (acts eq)) (lastShrinks vec s) (plastShrinks vec' p)); [|exact (proj2 K)].
    apply (etree_ind3 E A (fun _ => True) (fun s => forall p, acts_s eq s p -> calm_s V p -> acts_s (Forall2 (acts eq)) (lastShrinks vec s) (plastShrinks vec' p))); auto.
    - intros [|h q] Hs _; [exact I|contradiction].
    - intros h tl _ IH [|h' q] Hs Hc; [contradiction|]. destruct Hs as [Hh Ht], Hc as [Hch Hct]. cbn [lastShrinks plastShrinks]. split.
      + apply acts_make. apply Forall2_app; [apply ErasureEffProof.removelast_ok; auto|auto].
      + eapply runs_bind; [exact Ht|exact Hct|]. intros; apply runs_ret; eapply IH; eauto.
  Qed.
  Lemma shrinkLast_acts : forall (t : etree E (list (etree E A))) p, acts (Forall2 (acts eq)) t p -> calm (kept mn n V) p ->
    runs (acts_s (Forall2 (acts eq))) (shrinkLast t) (pshrinkLast p).
  Proof.
    intros t p Ht Hp. unfold shrinkLast, pshrinkLast. apply acts_root in Ht. apply calm_root in Hp. destruct Hp as [_ Hp].
    assert (Hr : Forall2 (acts eq) (rev (eroot t)) (rev (proot p))).
    { clear Hp. induction Ht; cbn; auto. apply Forall2_app; auto. }
    assert (Hc : Forall (calm V) (rev (proot p))) by (rewrite Forall_forall in *; intros x Hx; apply Hp; apply in_rev; auto).
    destruct Hr as [|x y l l' Hxy Hl]; [apply runs_ret; exact I|]. inversion Hc as [|? ? Hy _]; subst.
    eapply runs_bind; [apply acts_shr; exact Hxy|apply calm_shr; exact Hy|]. intros _ s s' _ _ Hs Hs'. apply runs_ret. apply lastShrinks_acts; auto.
  Qed.
End Accumulate.
Lemma map_root_acts : forall E A (l : list (etree E A)) l', Forall2 (acts eq) l l' -> map eroot l = map proot l'.
Proof. intros E A l l' H. induction H as [|x y l l' Hxy Hl IH]; cbn [map]; [reflexivity|]. apply acts_root in Hxy. congruence. Qed.
Lemma accumulate_chance : forall A (V : A -> Prop) (g1 : forall E, egen E A) (g2 : forall E, A -> egen E A) p1 p2 mn mx,
  obeys V g1 p1 -> (forall a, V a -> obeys V (fun E => g2 E a) (p2 a)) -> (0 <= mn)%Z -> (mn <= mx)%Z -> (mx <= INT64_MAX)%Z ->
  exists p, obeys (fits_size mn mx V) (fun E => accumulate (g1 E) (g2 E) mn mx) p /\
    forall f, expect p f == average mn mx (fun n => if (n =? 0)%Z then f [] else expect p1 (trail p2 (Z.to_nat n - 1) f)).
Proof.
  intros * O1 O2 M0 M1 M2. assert (C2 : forall a, V a -> ends (calm V) (p2 a)) by (intros a Ha; apply O2; auto).
  destruct (sizes_chance mn mx M0 M1 ltac:(unfold INT64_MAX, UINT64_MAX in *; lia)) as (ps & Os & Hs).
  assert (O3 : forall n, (mn <= n <= mx)%Z -> obeys (fits_size mn n V) (fun E => if (n =? 0)%Z then gret (emake [])
    else gbind (g1 E) (fun shr =>
         gbind (accumulateSteps (Z.to_nat n - 1) (g2 E) shr) (fun vec =>
         gbind (gfail (shrinkListLikeLength vec mn)) (fun lens =>
         gbind (eandThen shrinkLast (elift lens)) (fun t =>
         gret (emap (map eroot) t)))))) (paccumulated mn n p1 p2)).
  { intros n Hn. split; [|apply accumulated_calm; auto; try lia; apply O1]. intros E. unfold paccumulated. destruct (Z.eqb_spec n 0) as [->|Hn0].
    { apply runs_ret. apply acts_make. reflexivity. }
    eapply runs_bind; [apply O1|apply O1|]. intros _ x y _ _ Hxy Hy. eapply runs_bind; [eapply (accumulateSteps_acts V); try eassumption; intros a Ha; apply O2; auto|apply accumulateSteps_calm; eassumption|].
    intros _ vec vec' _ _ Hvec [Hl Hv]. assert (Hk : kept mn n V vec') by (split; [lia|auto]).
    destruct (lens_calm A V mn n vec' M0 ltac:(unfold size; lia) Hk) as (lens & El & _ & Hc).
    eapply runs_bind with (P := fun t => calm (kept mn n V) (plift t)); [apply lens_acts; exact Hvec|rewrite El; exact Hc|].
    intros _ t t' _ _ Ht Htc. eapply runs_bind; [|apply (proj1 (pandThen_calm _ _ _ (shrinkLast_calm A V mn n))); exact Htc|].
    - apply (proj1 (andThen_acts E _ _ (Forall2 (acts eq)) (kept mn n V) _ _ (shrinkLast_acts V mn n) (shrinkLast_calm A V mn n))); auto.
    - intros _ u u' _ _ Hu Huc. apply runs_ret. revert Hu Huc. apply (emap_acts E _ _ _ _ (Forall2 (acts eq)) eq (kept mn n V)). apply map_root_acts. }
  destruct (derive_chance _ _ _ _ _ _ Os O3) as (p & Op & Hp). exists p. split.
  - eapply obeys_weaken; [exact Op|]. intros l (n & Hn & Hl & Hf). split; [lia|auto].
  - intros f. rewrite Hp, Hs. apply average_ext. intros n Hn. apply (accumulated_mean A V); auto; try lia. apply O1.
Qed.

(** ** Vectors *)
Lemma ptimes_mean : forall A (p : plan (tree A)) (P : tree A -> Prop), ends P p -> forall n f,
  mean (ptimes n p) (fun x => match x with Ok l => f (map root l) | _ => 0 end) == many (fun h => mean p (fun x => match x with Ok t => h (root t) | _ => 0 end)) n f.
Proof.
  intros A p P H. induction n as [|n IH]; intros f; cbn [ptimes many]; [reflexivity|]. rewrite mean_then. eapply mean_ends; [exact H|]. intros t _. cbn [over].
  rewrite mean_then. rewrite <- IH. eapply mean_ends; [apply ptimes_ends; exact H|]. intros l _. cbn [over mean map]. reflexivity.
Qed.
Lemma vecPlan_mean : forall A (V : A -> Prop) mn mx (p : plan (tree A)) f, (0 <= mn)%Z -> (mn <= mx)%Z -> (mx <= UINT32_MAX)%Z -> ends (all_values V) p ->
  mean (vecPlan mn mx p) (fun x => match x with Ok t => f (root t) | _ => 0 end) ==
  average mn mx (fun n => many (fun h => mean p (fun x => match x with Ok t => h (root t) | _ => 0 end)) (Z.to_nat n) f).
Proof.
  intros A V mn mx p f H0 H1 H2 Hp. cbn [vecPlan mean]. rewrite (proj2 (Z.leb_le mn mx) H1). apply average_ext. intros n Hn. rewrite mean_then.
  rewrite <- (ptimes_mean A p _ Hp). eapply mean_ends; [apply ptimes_ends; exact Hp|]. intros vec [Hl Hv]. cbn [over mean].
  assert (Hs : size vec = n) by (unfold size; lia). destruct (vec_tree A V mn vec H0 ltac:(lia) Hv) as (t & -> & -> & _). reflexivity.
Qed.

(** ** The generator as an argument *)
Definition inputPlan {A} (p : plan (ptree A)) : plan (list A + err) := pthen (fun t => Ends (Ok (inl [proot t]))) p.
Lemma argument_follows : forall A (V : A -> Prop) g p, obeys V g p -> argumentFollows (fun E => argument (g E)) (pthen (fun t => Ends (Ok (inl (proot t)))) p).
Proof.
  intros A V g p [H _] E r. specialize (H E r). unfold argument. unfold gbind, gret. rewrite play_then. unfold gbind. destruct (g E r) as [[t q]| | |]; cbn [seen].
  - destruct H as (y & -> & Hy). apply acts_root in Hy. cbn [play onLeft seen]. rewrite Hy. reflexivity.
  - rewrite H. reflexivity.
  - rewrite H. reflexivity.
  - rewrite H. reflexivity.
Qed.
Lemma input_follows : forall A W (V : A -> Prop) (g : forall E, egen E A) p (ev : setting) (P : forall E, property E A W), obeys V g p ->
  (forall E, ord_call (ev E) = [0%nat] /\ gens (P E) = [argument (g E)]) -> inputsFollow ev P (inputPlan p).
Proof.
  intros A W V g p ev P O HP E r. destruct (HP E) as [-> ->]. destruct O as [H _]. specialize (H E r).
  unfold evalTuple, argument, inputPlan. cbn [map evalIn nth_error]. unfold gbind, gret. rewrite play_then. unfold gbind. destruct (g E r) as [[t q]| | |]; cbn [seen].
  - destruct H as (y & -> & Hy). apply acts_root in Hy. cbn. rewrite Hy. reflexivity.
  - rewrite H. reflexivity.
  - rewrite H. reflexivity.
  - rewrite H. reflexivity.
Qed.
Lemma input_mean : forall A (V : A -> Prop) (p : plan (ptree A)) c, ends (calm V) p -> prob (inputPlan p) c == expect p (tells (fun a => c (inl [a]))).
Proof. intros A V p c H. unfold prob, inputPlan. rewrite mean_then. unfold expect. eapply mean_ends; [exact H|]. intros t _. reflexivity. Qed.
Lemma expect_not : forall A (V : A -> Prop) (p : plan (ptree A)) ev, ends (calm V) p -> expect p (tells (fun a => negb (ev a))) == 1 - expect p (tells ev).
Proof.
  intros A V p ev H. assert (K : expect p (tells (fun a => negb (ev a))) + expect p (tells ev) == 1).
  { unfold expect. rewrite <- mean_plus. eapply mean_ends_const; [exact H|]. intros t _. unfold tells. destruct (ev (proot t)); reflexivity. }
  rewrite <- K. ring.
Qed.
