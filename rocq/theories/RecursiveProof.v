(** Recursive generators: proofs. *)
From Coq Require Import List ZArith Bool Lia Arith.
From Verif Require Import Base TreeModel TreeSpec TreeProof RandomModel ListModel ListSpec ListMainProof ContainerModel ContainerSpec ContainerProof GenModel IntegralProof RecursiveModel RecursiveSpec PropList PropContainer.
Import ListNotations.

Lemma box_ind2 : forall P : box -> Prop, (forall cs, Forall P cs -> P (Box cs)) -> forall b, P b.
Proof.
  intros P HP. fix IH 1. intros [cs]. apply HP. induction cs as [|c cs IHcs]; constructor; auto.
Qed.

Lemma draw_det : forall {E} mn mx (r : rst E), (mn <= mx)%Z -> draw mn mx r = Ok (unif E mn mx r).
Proof. intros E mn mx r H. unfold draw. destruct (Z.leb_spec mn mx); auto; lia. Qed.

(** What the draws spell. *)
Section Grown.
Context {E : engine} (mn mx : Z) (H1 : (mn <= mx)%Z).
Notation grown_ := (@grown E mn mx).

Lemma grown_app : forall r l r1 l' r2, grown_ r l r1 -> grown_ r1 l' r2 -> grown_ r (l ++ l') r2.
Proof. intros r l r1 l' r2 H. induction H; intros K; simpl; auto. econstructor; eauto. Qed.
Lemma grown_inv : forall r b l r3, grown_ r (b :: l) r3 -> exists n r1 cs r2, b = Box cs /\ draw mn mx r = Ok (n, r1) /\ grown_ r1 cs r2 /\ Z.of_nat (length cs) = n /\ grown_ r2 l r3.
Proof. intros r b l r3 H. inversion H; subst. eauto 10. Qed.
Lemma grown_split : forall l l' r r2, grown_ r (l ++ l') r2 -> exists r1, grown_ r l r1 /\ grown_ r1 l' r2.
Proof.
  induction l as [|b l IH]; intros l' r r2 H; simpl in H.
  - exists r. split; auto. constructor.
  - apply grown_inv in H. destruct H as [n [r1 [cs [r3 [-> [Hd [Hc [Hl Ht]]]]]]]]. destruct (IH _ _ _ Ht) as [r1' [A B]]. exists r1'. split; auto. econstructor; eauto.
Qed.
Lemma grown_fun : forall r l r1, grown_ r l r1 -> forall l' r1', grown_ r l' r1' -> length l = length l' -> l = l' /\ r1 = r1'.
Proof.
  intros r l r1 H. induction H as [r|r n r1 cs r2 ts r3 Hd Hc IHc Hl Ht IHt]; intros l' r1' K L.
  - destruct l'; [|discriminate]. inversion K; subst. auto.
  - destruct l' as [|b l']; [discriminate|]. apply grown_inv in K. destruct K as [n' [r1'' [cs' [r3' [-> [Kd [Kc [Kl Kt]]]]]]]].
    rewrite Hd in Kd. inversion Kd; subst. destruct (IHc _ _ Kc) as [A B]; [lia|]. subst. destruct (IHt _ _ Kt) as [A B]; [simpl in L; lia|]. subst. auto.
Qed.
Lemma after_S : forall k (r : rst E), after mn mx r (S k) = after mn mx (after mn mx r 1) k.
Proof. induction k as [|k IH]; intros r; auto. cbn [after] in *. rewrite IH. auto. Qed.
Lemma drawn_S : forall k (r : rst E), drawn mn mx r (S k) = drawn mn mx (after mn mx r 1) k.
Proof. intros k r. unfold drawn. rewrite after_S. auto. Qed.
Lemma balance_S : forall k (r : rst E), balance mn mx r (S k) = (drawn mn mx r 0 - 1 + balance mn mx (after mn mx r 1) k)%Z.
Proof.
  induction k as [|k IH]; intros r.
  - cbn [balance]. lia.
  - change (balance mn mx r (S (S k))) with (balance mn mx r (S k) + (drawn mn mx r (S k) - 1))%Z. rewrite IH, drawn_S. cbn [balance]. lia.
Qed.
Lemma after_add : forall a b (r : rst E), after mn mx r (a + b) = after mn mx (after mn mx r a) b.
Proof.
  induction a as [|a IH]; intros b r; auto. cbn [plus]. rewrite after_S, IH. f_equal. rewrite (after_S a r). auto.
Qed.
Lemma balance_add : forall a b (r : rst E), balance mn mx r (a + b) = (balance mn mx r a + balance mn mx (after mn mx r a) b)%Z.
Proof.
  induction a as [|a IH]; intros b r; [auto|]. cbn [plus]. rewrite balance_S, IH, (balance_S a r), <- after_S. lia.
Qed.
Lemma draw_first : forall (r : rst E) n r1, draw mn mx r = Ok (n, r1) -> n = drawn mn mx r 0 /\ r1 = after mn mx r 1.
Proof. intros r n r1 H. rewrite draw_det in H by auto. unfold drawn. cbn [after]. inversion H as [K]. rewrite K. auto. Qed.

Lemma grown_balance : forall r l r1, grown_ r l r1 -> let k := list_sum (map boxes l) in
  r1 = after mn mx r k /\ balance mn mx r k = (- Z.of_nat (length l))%Z /\ forall j, j < k -> (balance mn mx r j > - Z.of_nat (length l))%Z.
Proof.
  intros r l r1 H. induction H as [r|r n r1 cs r2 ts r3 Hd Hc IHc Hl Ht IHt]; cbn zeta.
  - cbn. split; auto. split; auto. intros j Hj. lia.
  - destruct (draw_first _ _ _ Hd) as [En E1]. cbn zeta in IHc, IHt. destruct IHc as [A1 [A2 A3]]. destruct IHt as [B1 [B2 B3]].
    cbn [map list_sum boxes length]. change (list_sum (S (list_sum (map boxes cs)) :: map boxes ts)) with (S (list_sum (map boxes cs)) + list_sum (map boxes ts)).
    set (a := list_sum (map boxes cs)) in *. set (b := list_sum (map boxes ts)) in *.
    rewrite Nat.add_succ_l. rewrite after_S, after_add, <- E1, <- A1. split; auto. rewrite balance_S, balance_add, <- E1, A2, <- A1, B2, <- En. split; [lia|].
    intros j Hj. destruct j as [|j]; [cbn [balance]; lia|]. rewrite balance_S, <- E1, <- En.
    destruct (lt_dec j a) as [Hja|Hja].
    + specialize (A3 _ Hja). lia.
    + replace j with (a + (j - a)) by lia. rewrite balance_add, A2, <- A1. assert (Hb : j - a < b) by lia. specialize (B3 _ Hb). lia.
Qed.
Hypothesis H0 : (0 <= mn)%Z.
Lemma drawn_bounds : forall r k, (mn <= @drawn E mn mx r k <= mx)%Z.
Proof.
  intros r k. unfold drawn. destruct (draw_ok E mn mx (after mn mx r k) H1) as [n [r1 [Hd Hn]]]. rewrite draw_det in Hd by auto. inversion Hd. cbn. rewrite H2 in *. auto.
Qed.
Lemma balance_grown : forall k m (r : rst E), balance mn mx r k = (- Z.of_nat m)%Z -> (forall j, j < k -> (balance mn mx r j > - Z.of_nat m)%Z) ->
  exists l, length l = m /\ grown_ r l (after mn mx r k).
Proof.
  induction k as [|k IH]; intros m r Hb Hj.
  - cbn [balance] in Hb. exists []. split; [simpl; lia|constructor].
  - assert (Hm : m > 0). { specialize (Hj 0 ltac:(lia)). cbn [balance] in Hj. lia. }
    pose proof (drawn_bounds r 0) as Hd. rewrite balance_S in Hb.
    set (d := Z.to_nat (drawn mn mx r 0)) in *.
    destruct (IH (d + (m - 1)) (after mn mx r 1)) as [l [Hl Hg]].
    + unfold d. lia.
    + intros j Hlt. specialize (Hj (S j) ltac:(lia)). rewrite balance_S in Hj. unfold d. lia.
    + rewrite <- (firstn_skipn d l) in Hg. apply grown_split in Hg. destruct Hg as [r2 [G1 G2]].
      exists (Box (firstn d l) :: skipn d l). split.
      * simpl. rewrite skipn_length. lia.
      * rewrite after_S. econstructor; [| apply G1 | | apply G2].
        -- rewrite draw_det by auto. rewrite (surjective_pairing (unif E mn mx r)). f_equal.
        -- rewrite firstn_length. unfold drawn in *. cbn [after] in *. unfold d. rewrite Nat.min_l by (unfold d in Hl; lia). lia.
Qed.
(** The first time the balance gets to -1. *)
Lemma balance_least : forall k (r : rst E), balance mn mx r k = (-1)%Z -> exists j, j <= k /\ balance mn mx r j = (-1)%Z /\ forall i, i < j -> (balance mn mx r i > -1)%Z.
Proof.
  intros k r. induction k as [k IH] using lt_wf_ind. intros Hk.
  destruct (Forall_Exists_dec (fun i => (balance mn mx r i > -1)%Z) (fun i => Z_gt_dec _ _) (seq 0 k)) as [F|F].
  - exists k. split; auto. split; auto. intros i Hi. rewrite Forall_forall in F. apply F. apply in_seq. lia.
  - apply Exists_exists in F. destruct F as [i [Hi Hn]]. apply in_seq in Hi.
    (* between 0 and i the balance passes -1 *)
    assert (K : forall i0, ~ (balance mn mx r i0 > -1)%Z -> exists j, j <= i0 /\ balance mn mx r j = (-1)%Z).
    { clear Hn Hi. intros i0. induction i0 as [|i0 IHi]; intros Hn.
      - cbn [balance] in Hn. lia.
      - destruct (Z_gt_dec (balance mn mx r i0) (-1)) as [G|G].
        + exists (S i0). split; auto. cbn [balance] in *. pose proof (drawn_bounds r i0). lia.
        + destruct (IHi G) as [j [A B]]. exists j. split; auto. }
    destruct (K i Hn) as [j [A B]]. destruct (IH j ltac:(lia) B) as [j' [C D]]. exists j'. split; [lia|auto].
Qed.
Lemma grown_within : forall r l r1, grown_ r l r1 -> Forall (within mn mx) l.
Proof.
  intros r l r1 H. induction H as [r|r n r1 cs r2 ts r3 Hd Hc IHc Hl Ht IHt]; constructor; auto.
  constructor; auto. destruct (draw_first _ _ _ Hd) as [-> _]. rewrite Hl. apply drawn_bounds.
Qed.
End Grown.

Section Recursive.
Context {E : engine} (mn mx : Z) (H0 : (0 <= mn)%Z) (H1 : (mn <= mx)%Z) (H2 : (mx <= UINT32_MAX)%Z).
Notation z := {| minSize := mn; maxSize := mx |}.

Lemma list_tree : forall (vec : list (tree box)), (mn <= size vec <= mx)%Z -> exists t, shrinkListLike vec mn true = Ok t /\ root t = map root vec /\
  all_values (fun v => (mn <= size v <= size vec)%Z /\ exists sub, In sub (sublists vec) /\ Forall2 (fun e x => In x (values e)) sub v) t.
Proof.
  intros vec Hs. destruct (C13_list_sound box vec (Z.to_nat mn) true) as [t [E1 [E2 E3]]]; [apply u32_int64; lia|unfold size in *; lia|].
  rewrite Z2Nat.id in E1 by auto. exists t. split; auto. split; auto. intros s Hs0. apply E3 in Hs0. destruct Hs0 as [A B]. split; auto. unfold size in *. lia.
Qed.
(** One vector. *)
Lemma vector_iff : forall (g : gen E box) r t r', arbi_vector g z r = Ok (t, r') <->
  exists n r1 vec, draw mn mx r = Ok (n, r1) /\ draws g r1 vec r' /\ size vec = n /\ shrinkListLike vec mn true = Ok t.
Proof.
  intros g r t r'. destruct (C22_vector E box g mn mx r H0 H1 H2) as [n [r1 [Hd [Hn Hi]]]]. rewrite Hi. split.
  - intros [vec [A [B [C _]]]]. exists n, r1, vec. auto.
  - intros [n' [r1' [vec [A [B [C D]]]]]]. rewrite Hd in A. inversion A; subst n' r1'. exists vec.
    destruct (list_tree vec ltac:(lia)) as [t' [E1 [E2 E3]]]. rewrite D in E1. inversion E1; subst t'.
    split; auto. split; auto. split; auto. split; auto. intros s Hs. destruct (E3 s Hs). lia.
Qed.

Context (make : tree (list box) -> tree box) (Hmake : forall t, root (make t) = Box (root t)).
Lemma gen_step : forall n r T r', @boxGen E (S n) make z r = Ok (T, r') <-> exists t, arbi_vector (boxGen n make z) z r = Ok (t, r') /\ T = make t.
Proof.
  intros n r T r'. cbn [boxGen]. unfold gbind, gret. destruct (arbi_vector (boxGen n make z) z r) as [[t r1]| | |]; split;
    try discriminate; try (intros [t0 [H _]]; discriminate).
  - intros H. inversion H; subst. eauto.
  - intros [t0 [H ->]]. inversion H; subst. auto.
Qed.
Lemma list_max_le : forall l n, list_max l <= n <-> Forall (fun k => k <= n) l.
Proof. intros. apply List.list_max_le. Qed.
Lemma gen_grown : forall n r T r', @boxGen E n make z r = Ok (T, r') -> grown mn mx r [root T] r' /\ depth (root T) <= n.
Proof.
  induction n as [|n IH]; intros r T r' H; [discriminate|]. apply gen_step in H. destruct H as [t [H ->]].
  apply vector_iff in H. destruct H as [m [r1 [vec [Hd [Hv [Hs Ht]]]]]].
  destruct (draw_ok E mn mx r H1) as [m' [r1' [Hd' Hm]]]. rewrite Hd in Hd'. inversion Hd'; subst m' r1'. subst m.
  destruct (list_tree vec ltac:(lia)) as [t' [E1 [E2 _]]]. rewrite Ht in E1. inversion E1; subst t'. rewrite Hmake, E2.
  assert (G : grown mn mx r1 (map root vec) r' /\ Forall (fun b => depth b <= n) (map root vec)).
  { clear - Hv IH. induction Hv; [split; constructor|]. destruct (IH _ _ _ H) as [A B]. destruct IHHv as [C D]. cbn [map]. split; [|constructor; auto].
    change (root a :: map root l) with ([root a] ++ map root l). eapply grown_app; eauto. }
  destruct G as [G1 G2]. split.
  - econstructor; [apply Hd|apply G1| |constructor]. rewrite map_length. auto.
  - cbn [depth]. apply le_n_S. apply list_max_le. rewrite map_map. rewrite Forall_forall in *. intros k Hk. apply in_map_iff in Hk. destruct Hk as [x [<- Hx]].
    apply G2. apply in_map. auto.
Qed.
Lemma grown_gen : forall r l r', grown mn mx r l r' -> forall n, Forall (fun b => depth b <= n) l ->
  exists vec, draws (@boxGen E n make z) r vec r' /\ map root vec = l.
Proof.
  intros r l r' H. induction H as [r|r m r1 cs r2 ts r3 Hd Hc IHc Hl Ht IHt]; intros n F.
  - exists []. split; [constructor|auto].
  - inversion F; subst. destruct n as [|n]; [cbn [depth] in H4; lia|]. cbn [depth] in H4. apply le_S_n in H4. apply list_max_le in H4.
    destruct (IHc n) as [v1 [A1 A2]]. { rewrite Forall_forall in *. intros b Hb. apply H4. apply in_map. auto. }
    destruct (IHt (S n) H5) as [v2 [B1 B2]].
    assert (Hm : (mn <= Z.of_nat (length cs) <= mx)%Z). { destruct (draw_ok E mn mx r H1) as [n' [r1' [Hd' Hn]]]. rewrite Hd in Hd'. inversion Hd'; subst. lia. }
    assert (Hsz : size v1 = Z.of_nat (length cs)) by (unfold size; rewrite <- A2, map_length; auto).
    destruct (list_tree v1 ltac:(lia)) as [t [E1 [E2 _]]].
    exists (make t :: v2). split.
    + econstructor; [|apply B1]. apply gen_step. exists t. split; auto. apply vector_iff. eauto 10.
    + cbn [map]. rewrite Hmake, E2, A2, B2. auto.
Qed.
Theorem gen_iff : forall n r b r', (exists T, @boxGen E n make z r = Ok (T, r') /\ root T = b) <-> grown mn mx r [b] r' /\ depth b <= n.
Proof.
  intros n r b r'. split.
  - intros [T [H <-]]. apply gen_grown; auto.
  - intros [H D]. destruct (grown_gen _ _ _ H n) as [vec [A B]]; [constructor; auto|].
    destruct vec as [|T [|T' vec]]; try discriminate. inversion A as [|? ? ? ? ? Ha Hr]; subst. inversion Hr; subst. inversion B. eauto.
Qed.
(** No other outcome than a value or a deeper call. *)
Definition fine {A} (x : res A) : Prop := match x with Ok _ | OutOfFuel => True | _ => False end.
Lemma times_fine : forall A (g : gen E A), (forall r, fine (g r)) -> forall k r, fine (times k g r).
Proof.
  intros A g Hg. induction k as [|k IH]; intros r; [exact I|]. cbn [times]. unfold gbind, gret. specialize (Hg r).
  destruct (g r) as [[a r1]| | |]; auto. specialize (IH r1). destruct (times k g r1) as [[l r2]| | |]; auto; exact I.
Qed.
Lemma gen_fine : forall n r, fine (@boxGen E n make z r).
Proof.
  induction n as [|n IH]; intros r; [exact I|]. cbn [boxGen]. unfold gbind at 1, arbi_vector. unfold gbind at 1.
  rewrite (containerSize_eq E mn mx r H0 H1 H2).
  destruct (draw_ok E mn mx r H1) as [m [r1 [Hd Hm]]]. rewrite Hd.
  unfold gbind at 1. pose proof (times_fine _ (boxGen n make z) IH (Z.to_nat m) r1) as K. destruct (times (Z.to_nat m) (boxGen n make z) r1) as [[vec r2]| | |] eqn:Et; auto.
  apply times_ok in Et. destruct Et as [Et El]. unfold gfail. cbn [minSize]. destruct (list_tree vec) as [t [-> _]]; [unfold size; lia|exact I].
Qed.

(** With a level. *)
Lemma level_step : forall n r T r', @boxLevel E (S n) make z r = Ok (T, r') <-> exists t, arbi_vector (boxLevel n make z) z r = Ok (t, r') /\ T = make t.
Proof.
  intros n r T r'. cbn [boxLevel]. unfold gbind, gret. destruct (arbi_vector (boxLevel n make z) z r) as [[t r1]| | |]; split;
    try discriminate; try (intros [t0 [H _]]; discriminate).
  - intros H. inversion H; subst. eauto.
  - intros [t0 [H ->]]. inversion H; subst. auto.
Qed.
Lemma grownTo_app : forall level r l r1, @grownTo E mn mx level r l r1 -> forall l' r2, grownTo mn mx level r1 l' r2 -> grownTo mn mx level r (l ++ l') r2.
Proof. intros level r l r1 H. induction H; intros l' r4 K; simpl; auto; econstructor; eauto. Qed.
Lemma level_grown : forall n r T r', @boxLevel E n make z r = Ok (T, r') -> grownTo mn mx n r [root T] r'.
Proof.
  induction n as [|n IH]; intros r T r' H.
  - inversion H; subst. cbn. constructor. constructor.
  - apply level_step in H. destruct H as [t [H ->]].
    apply vector_iff in H. destruct H as [m [r1 [vec [Hd [Hv [Hs Ht]]]]]].
    destruct (draw_ok E mn mx r H1) as [m' [r1' [Hd' Hm]]]. rewrite Hd in Hd'. inversion Hd'; subst m' r1'. subst m.
    destruct (list_tree vec ltac:(lia)) as [t' [E1 [E2 _]]]. rewrite Ht in E1. inversion E1; subst t'. rewrite Hmake, E2.
    assert (G : grownTo mn mx n r1 (map root vec) r').
    { clear - Hv IH. induction Hv; [constructor|]. cbn [map]. change (root a :: map root l) with ([root a] ++ map root l). eapply grownTo_app; eauto. }
    econstructor; [apply Hd|apply G| |constructor]. rewrite map_length. auto.
Qed.
Lemma level_total : forall n r, exists T r', @boxLevel E n make z r = Ok (T, r').
Proof.
  induction n as [|n IH]; intros r; [repeat econstructor|].
  destruct (C22_vector_total E box (boxLevel n make z) mn mx r H0 H1 H2 IH) as [t [r' [Ht _]]]. exists (make t), r'. apply level_step. eauto.
Qed.
Lemma grownTo_leveled : forall n r l r', @grownTo E mn mx n r l r' -> Forall (leveled mn mx n) l.
Proof.
  intros n r l r' H. induction H as [| |level r n r1 cs r2 ts r3 Hd Hc IHc Hl Ht IHt]; constructor; auto; constructor; auto.
  destruct (draw_ok E mn mx r H1) as [m' [r1' [Hd' Hm]]]. rewrite Hd in Hd'. inversion Hd'; subst m' r1'. lia.
Qed.
End Recursive.

Lemma leveled_depth : forall mn mx n b, leveled mn mx n b -> depth b <= S n.
Proof.
  intros mn mx n. induction n as [|n IH]; intros b H; inversion H; subst; cbn [depth]; [simpl; lia|].
  apply le_n_S. apply list_max_le. rewrite Forall_forall in *. intros k Hk. apply in_map_iff in Hk. destruct Hk as [x [<- Hx]]. auto.
Qed.
Lemma leveled_boxes : forall mn mx n b, leveled mn mx n b -> boxes b <= powers (Z.to_nat mx) n.
Proof.
  intros mn mx n. induction n as [|n IH]; intros b H; inversion H as [|? ? Hc F]; subst; cbn [boxes powers]; [simpl; lia|].
  apply le_n_S. assert (K : list_sum (map boxes cs) <= length cs * powers (Z.to_nat mx) n).
  { clear - F IH. induction F as [|x l Hx F IHF]; simpl; auto. specialize (IH _ Hx). lia. }
  eapply Nat.le_trans; [apply K|]. apply Nat.mul_le_mono_r. lia.
Qed.

(** Shrinks of boxes made by the method map. *)
Section Shrinks.
Context {E : engine} (mn mx : Z) (H0 : (0 <= mn)%Z) (H1 : (mn <= mx)%Z) (H2 : (mx <= UINT32_MAX)%Z).
Notation z := {| minSize := mn; maxSize := mx |}.
Lemma byMap_root : forall t, root (byMap t) = Box (root t).
Proof. intros t. apply root_map. Qed.
Lemma byConstruct_root : forall t, root (byConstruct t) = Box (root t).
Proof. auto. Qed.

Lemma sublists_map_root : forall (vec sub : list (tree box)), In sub (sublists vec) -> In (map root sub) (sublists (map root vec)).
Proof. intros vec sub H. rewrite sublists_map. apply in_map. auto. Qed.
Lemma pick : forall (P : box -> box -> Prop) (vec sub : list (tree box)) v, (forall e, In e vec -> Forall (P (root e)) (values e)) -> In sub (sublists vec) -> Forall2 (fun e x => In x (values e)) sub v ->
  Forall2 P (map root sub) v.
Proof.
  intros P vec sub v H Hsub F. assert (K : forall e, In e sub -> Forall (P (root e)) (values e)) by (intros; apply H; eapply sublists_In; eauto).
  clear H Hsub. induction F; constructor; [|apply IHF; intros; apply K; right; auto].
  specialize (K x (or_introl eq_refl)). rewrite Forall_forall in K. auto.
Qed.
Lemma Forall2_right : forall A B (P : B -> Prop) (Q : A -> B -> Prop) l l', Forall2 (fun a b => Q a b /\ P b) l l' -> Forall P l' /\ Forall2 Q l l'.
Proof. intros A B P Q l l' H. induction H; split; constructor; tauto. Qed.
Lemma vec_in : forall (g : gen E box) r vec r', draws g r vec r' -> forall e, In e vec -> exists q q', g q = Ok (e, q').
Proof. intros g r vec r' H. induction H; intros e He; destruct He; subst; eauto. Qed.

(** One layer, for either generator. *)
Lemma layer : forall (P : box -> Prop) (g : gen E box) r t r', arbi_vector g z r = Ok (t, r') ->
  (forall q e q', g q = Ok (e, q') -> all_values (fun v => pruned (root e) v /\ P v) e) ->
  all_values (fun b => pruned (Box (root t)) b /\ exists cs, b = Box cs /\ (mn <= Z.of_nat (length cs) <= mx)%Z /\ Forall P cs) (byMap t) /\
  forall sub, In sub (sublists (root t)) -> (mn <= Z.of_nat (length sub))%Z -> In (Box sub) (values (byMap t)).
Proof.
  intros P g r t r' H Hg. apply (vector_iff mn mx H0 H1 H2) in H. destruct H as [m [r1 [vec [Hd [Hv [Hs Ht]]]]]].
  destruct (draw_ok E mn mx r H1) as [m' [r1' [Hd' Hm]]]. rewrite Hd in Hd'. inversion Hd'; subst m' r1'. subst m.
  destruct (list_tree mn mx H0 H2 vec ltac:(lia)) as [t' [E1 [E2 E3]]]. rewrite Ht in E1. inversion E1; subst t'. split.
  - intros s Hr. unfold byMap in Hr. apply reach_map_inv in Hr. destruct Hr as [u [Hu ->]]. rewrite root_map. destruct (E3 u Hu) as [A [sub [B C]]].
    assert (F : Forall2 (fun a b => pruned a b /\ P b) (map root sub) (root u)).
    { eapply pick; [|apply B|apply C]. intros e He. destruct (vec_in _ _ _ _ Hv e He) as [q [q' Hq]]. apply all_values_values. eapply Hg. apply Hq. }
    apply Forall2_right in F. destruct F as [F1 F2]. split.
    + rewrite E2. econstructor; [apply sublists_map_root, B|apply F2].
    + exists (root u). split; auto. split; auto. unfold size in *. lia.
  - intros sub Hsub Hl. rewrite E2, sublists_map in Hsub. apply in_map_iff in Hsub. destruct Hsub as [sv [<- Hsv]]. unfold byMap. rewrite values_map. apply in_map.
    destruct (C13_list_deletions_complete box vec (Z.to_nat mn) true) as [t' [K1 K2]]; [apply u32_int64; lia|unfold size in *; lia|].
    rewrite Z2Nat.id in K1 by auto. rewrite Ht in K1. inversion K1; subst t'. apply K2.
    unfold sublists_min. apply filter_In. split; auto. apply Nat.leb_le. rewrite map_length in Hl. lia.
Qed.
Theorem gen_shrinks : forall n r T r', @boxGen E n byMap z r = Ok (T, r') ->
  all_values (fun v => pruned (root T) v /\ within mn mx v) T /\
  forall cs sub, root T = Box cs -> In sub (sublists cs) -> (mn <= Z.of_nat (length sub))%Z -> In (Box sub) (values T).
Proof.
  induction n as [|n IH]; intros r T r' H; [discriminate|]. apply gen_step in H. destruct H as [t [H ->]].
  destruct (layer (within mn mx) _ _ _ _ H) as [A B]; [intros q e q' Hq; apply (IH _ _ _ Hq)|]. rewrite byMap_root. split.
  - intros s Hs. destruct (A s Hs) as [A1 [cs [K [A2 A3]]]]. split; auto. rewrite K. constructor; auto.
  - intros cs sub Hc. inversion Hc; subst. apply B.
Qed.
Theorem level_shrinks : forall n r T r', @boxLevel E n byMap z r = Ok (T, r') ->
  all_values (fun v => pruned (root T) v /\ leveled mn mx n v) T /\
  (n > 0 -> forall cs sub, root T = Box cs -> In sub (sublists cs) -> (mn <= Z.of_nat (length sub))%Z -> In (Box sub) (values T)).
Proof.
  induction n as [|n IH]; intros r T r' H.
  - inversion H; subst. split; [|lia]. intros s Hs. inversion Hs; subst; [|contradiction]. cbn. split; [|constructor]. econstructor; [left; reflexivity|constructor].
  - apply level_step in H. destruct H as [t [H ->]].
    destruct (layer (leveled mn mx n) _ _ _ _ H) as [A B]; [intros q e q' Hq; apply (IH _ _ _ Hq)|]. rewrite byMap_root. split.
    + intros s Hs. destruct (A s Hs) as [A1 [cs [K [A2 A3]]]]. split; auto. rewrite K. constructor; auto.
    + intros _ cs sub Hc. inversion Hc; subst. apply B.
Qed.
End Shrinks.
