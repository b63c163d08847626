(** Lemmas on show and on the printing of UTF-16. *)
From Coq Require Import String Ascii List ZArith Bool Lia.
From Verif Require Import Base TreeModel BinSearchProof Utf8Model Cesu8Model Utf16Model PrintModel UtfSpec UtfProof Utf16Proof PrintSpec PrintProof.
Import ListNotations.
Local Open Scope Z_scope.

(** ** Values of printable types *)

(** Strings are made of bytes. *)
Fixpoint good (t : shty) : sem t -> Prop :=
  match t return sem t -> Prop with
  | TBool | TInt | TSetInt => fun _ => True
  | TStr | TCesu => Forall byte
  | TPair a b => fun p => good a (fst p) /\ good b (snd p)
  | TTuple a r => fun p => good a (fst p) /\ goods r (snd p)
  | TSeq a => Forall (good a)
  | TMap k v => Forall (fun p => good k (fst p) /\ good v (snd p))
  | TPtr a => fun o => match o with Some x => good a x | None => True end
  end
with goods (r : shtys) : sems r -> Prop :=
  match r return sems r -> Prop with
  | TNil => fun _ => True
  | TCons a r => fun p => good a (fst p) /\ goods r (snd p)
  end.

(** No pointer to a pointer. *)
Definition is_ptr (t : shty) : bool := match t with TPtr _ => true | _ => false end.
Fixpoint plain (t : shty) : Prop :=
  match t with
  | TBool | TInt | TStr | TCesu | TSetInt => True
  | TPair a b | TMap a b => plain a /\ plain b
  | TTuple a r => plain a /\ plains r
  | TSeq a => plain a
  | TPtr a => is_ptr a = false /\ plain a
  end
with plains (r : shtys) : Prop := match r with TNil => True | TCons a r => plain a /\ plains r end.

Scheme shty_mut := Induction for shty Sort Prop with shtys_mut := Induction for shtys Sort Prop.
Combined Scheme shty_shtys_ind from shty_mut, shtys_mut.

Definition shown (t : shty) (a : sem t) (x : text) : Prop := good t a /\ show t a = Ok x.

Lemma quoted_end : forall t a, Forall byte a -> exists x c, quoted t a = x ++ [c; 41] /\ c <> 108.
Proof.
  intros t a Ha. unfold quoted. rewrite stringAsHex_ok by auto. change (lit ")") with [41].
  destruct (dump a) as [|c d _] eqn:E using rev_ind.
  - exists (lit """" ++ t ++ [34; 32]), 40. split; [|lia]. change (lit """ (") with ([34; 32] ++ [40]). rewrite <- !app_assoc. auto.
  - exists (lit """" ++ t ++ lit """ (" ++ d), c. split; [rewrite <- !app_assoc; auto|].
    assert (I : In c (dump a)) by (rewrite E; apply in_app_iff; cbn; auto). apply dump_chars in I; auto. lia.
Qed.

(** Does not end with "l)". *)
Definition no_null (x : text) : Prop := exists x0 c d, x = x0 ++ [c; d] /\ (d <> 41 \/ c <> 108) \/ x = x0 ++ [d] /\ d <> 41.

Lemma no_null_ok : forall x k k', no_null x -> k ++ show_null = k' ++ x -> False.
Proof.
  intros x k k' [x0 [c [d [[-> N]|[-> N]]]]] E.
  - replace (k ++ show_null) with (k ++ [40; 110; 117; 108] ++ [108; 41]) in E by auto.
    change [c; d] with ([c] ++ [d]) in E. change [108; 41] with ([108] ++ [41]) in E. rewrite !app_assoc in E.
    apply app_inj_tail in E. destruct E as [E <-]. apply app_inj_tail in E. destruct E as [_ <-]. lia.
  - replace (k ++ show_null) with ((k ++ [40; 110; 117; 108; 108]) ++ [41]) in E by (rewrite <- app_assoc; auto).
    rewrite app_assoc in E. apply app_inj_tail in E. destruct E. congruence.
Qed.

Lemma ok_inv : forall A B (r : res A) (f : A -> res B) y, bind r f = Ok y -> exists x, r = Ok x /\ f x = Ok y.
Proof. intros A B [x| |e|] f y E; cbn in E; try discriminate. eauto. Qed.

Lemma mapM_forall2 : forall A B (f : A -> res B) l ys, mapM f l = Ok ys -> Forall2 (fun a y => f a = Ok y) l ys.
Proof.
  induction l as [|a l IH]; intros ys E; cbn in E.
  - injection E as <-. constructor.
  - apply ok_inv in E. destruct E as [y [E1 E]]. apply ok_inv in E. destruct E as [ys' [E2 E]]. injection E as <-. constructor; auto.
Qed.

Lemma forall2_and : forall A B (P : A -> Prop) (R : A -> B -> Prop) l ys, Forall P l -> Forall2 R l ys -> Forall2 (fun a y => P a /\ R a y) l ys.
Proof. intros A B P R l ys F G. induction G; constructor; inversion F; subst; auto. Qed.

Lemma show_str_ok : forall (pr : list Z -> res text) a x, (do t <- pr a; Ok (quoted t a)) = Ok x -> exists t, pr a = Ok t /\ x = quoted t a.
Proof. intros pr a x E. apply ok_inv in E. destruct E as [t [E1 E]]. injection E as <-. eauto. Qed.

Lemma pair_right : forall A B (R : A -> text -> Prop) (S : B -> text -> Prop), right_inj R -> right_inj S ->
  right_inj (fun (p : A * B) x => exists u v, R (fst p) u /\ S (snd p) v /\ x = show_pair u v).
Proof.
  intros A B R S [RS RI] [SS SI]. split.
  - intros [a b] x [u [v [_ [_ ->]]]]. unfold show_pair. exists (lit "( " ++ u ++ lit ", " ++ v ++ [32]), 41.
    split; [rewrite <- !app_assoc; auto|lia].
  - intros [a b] [a' b'] x y k k' [u [v [Hu [Hv ->]]]] [u' [v' [Hu' [Hv' ->]]]] Hk Hk' E. cbn [fst snd] in *.
    unfold show_pair in E. change (lit " )") with [32; 41] in E. change (lit "( ") with [40; 32] in E. change (lit ", ") with [44; 32] in E.
    replace (k ++ [40; 32] ++ u ++ [44; 32] ++ v ++ [32; 41]) with ((((k ++ [40; 32]) ++ u) ++ [44; 32]) ++ v ++ [32; 41]) in E by (rewrite <- !app_assoc; auto).
    replace (k' ++ [40; 32] ++ u' ++ [44; 32] ++ v' ++ [32; 41]) with ((((k' ++ [40; 32]) ++ u') ++ [44; 32]) ++ v' ++ [32; 41]) in E by (rewrite <- !app_assoc; auto).
    rewrite !(app_assoc _ v), !(app_assoc _ v') in E. apply app_inv_tail in E.
    destruct (SI b b' v v' _ _ Hv Hv' (spaced_app _ _ (ex_intro _ [44] eq_refl)) (spaced_app _ _ (ex_intro _ [44] eq_refl)) E) as [-> E1].
    apply app_inv_tail in E1.
    destruct (RI a a' u u' _ _ Hu Hu' (spaced_app _ _ (ex_intro _ [40] eq_refl)) (spaced_app _ _ (ex_intro _ [40] eq_refl)) E1) as [-> E2].
    apply app_inv_tail in E2. auto.
Qed.

Lemma seq_right : forall A (R : A -> text -> Prop) p q, right_inj R -> p <> 44 -> q <> 32 ->
  right_inj (fun (l : list A) x => exists ts, Forall2 R l ts /\ x = [p; 32] ++ commas ts ++ [32; q]).
Proof.
  intros A R p q RR Hp Hq. split.
  - intros l x [ts [_ ->]]. exists ([p; 32] ++ commas ts ++ [32]), q. split; auto. rewrite <- !app_assoc. auto.
  - intros l l' x y k k' [ts [F ->]] [ts' [F' ->]] _ _ E. rewrite !app_assoc in E. apply app_inv_tail in E. rewrite <- !app_assoc in E.
    eapply commas_inj; eauto.
Qed.

Lemma right_weaken : forall A (R S : A -> text -> Prop), right_inj R -> (forall a x, S a x -> R a x) -> right_inj S.
Proof. intros A R S [RS RI] W. split; [eauto|]. intros. eapply RI; eauto. Qed.

Lemma dec_right : right_inj (fun n x => x = dec n).
Proof.
  assert (N : forall n, ~ In 32 (dec n)) by (intros n I; apply dec_chars in I; lia). split.
  - intros n x ->. destruct (dec_solid n) as [y [c [-> Hc]]]. exists y, c. split; auto. lia.
  - intros a b x y k k' -> -> Hk Hk' E. apply spaceless_right in E; auto. destruct E as [-> E]. apply dec_inj in E. auto.
Qed.

Lemma map_dec_forall2 : forall l, Forall2 (fun n x => x = dec n) l (map dec l).
Proof. induction l; constructor; auto. Qed.

Lemma show_right : (forall t, plain t -> right_inj (shown t) /\ (is_ptr t = false -> forall a x, shown t a x -> no_null x)) /\
  (forall r, plains r -> forall p q ys ys' X X', goods r p -> goods r q -> shows r p = Ok ys -> shows r q = Ok ys' ->
     X ++ flat_map (fun x => [44; 32] ++ x) ys = X' ++ flat_map (fun x => [44; 32] ++ x) ys' -> p = q /\ X = X').
Proof.
  apply shty_shtys_ind; cbn [plain plains is_ptr].
  - (* TBool *) intros _. split; [split|].
    + intros a x [_ E]. injection E as <-. destruct a; [exists (lit "tru"), 101|exists (lit "fals"), 101]; split; auto; lia.
    + intros a b x y k k' [_ E1] [_ E2] Hk Hk' E. injection E1 as <-. injection E2 as <-.
      assert (N : forall b, ~ In 32 (show_bool b)) by (intros [|]; cbn; lia).
      apply spaceless_right in E; auto. destruct E as [-> E]. split; auto. destruct a, b; auto; discriminate.
    + intros _ a x [_ E]. injection E as <-. destruct a; [exists (lit "tru"), 0, 101|exists (lit "fals"), 0, 101]; right; split; auto; lia.
  - (* TInt *) intros _. split.
    + eapply right_weaken; [apply dec_right|]. intros a x [_ E]. injection E as <-. auto.
    + intros _ a x [_ E]. injection E as <-. destruct (dec_solid a) as [y [c [-> Hc]]]. exists y, 0, c. right. split; auto. lia.
  - (* TStr *) intros _. split; [split|].
    + intros a x [G E]. apply show_str_ok in E. destruct E as [t [_ ->]]. destruct (quoted_end t a G) as [y [c [-> _]]].
      exists (y ++ [c]), 41. split; [rewrite <- app_assoc; auto|lia].
    + intros a b x y k k' [G E] [G' E'] _ _ EE. apply show_str_ok in E. destruct E as [t [E ->]].
      apply show_str_ok in E'. destruct E' as [t' [E' ->]]. refine (quoted_right k k' t t' a b G G' _ EE). intros Eab. rewrite Eab in E. congruence.
    + intros _ a x [G E]. apply show_str_ok in E. destruct E as [t [_ ->]]. destruct (quoted_end t a G) as [y [c [-> N]]].
      exists y, c, 41. left. auto.
  - (* TCesu *) intros _. split; [split|].
    + intros a x [G E]. apply show_str_ok in E. destruct E as [t [_ ->]]. destruct (quoted_end t a G) as [y [c [-> _]]].
      exists (y ++ [c]), 41. split; [rewrite <- app_assoc; auto|lia].
    + intros a b x y k k' [G E] [G' E'] _ _ EE. apply show_str_ok in E. destruct E as [t [E ->]].
      apply show_str_ok in E'. destruct E' as [t' [E' ->]]. refine (quoted_right k k' t t' a b G G' _ EE). intros Eab. rewrite Eab in E. congruence.
    + intros _ a x [G E]. apply show_str_ok in E. destruct E as [t [_ ->]]. destruct (quoted_end t a G) as [y [c [-> N]]].
      exists y, c, 41. left. auto.
  - (* TSetInt *) intros _. split.
    + eapply right_weaken; [apply (seq_right Z _ 123 125 dec_right); lia|]. intros a x [_ E]. injection E as <-.
      exists (map dec a). split; [apply map_dec_forall2|auto].
    + intros _ a x [_ E]. injection E as <-. exists ([123; 32] ++ commas (map dec a) ++ [32]), 0, 125. right. split; [|lia].
      unfold show_braced. rewrite <- !app_assoc. auto.
  - (* TPair *) intros a IHa b IHb [Pa Pb]. destruct (IHa Pa) as [Ra _], (IHb Pb) as [Rb _].
    assert (W : forall p x, shown (TPair a b) p x -> exists u v, shown a (fst p) u /\ shown b (snd p) v /\ x = show_pair u v).
    { intros p x [[G1 G2] E]. cbn [show] in E. apply ok_inv in E. destruct E as [u [E1 E]]. apply ok_inv in E. destruct E as [v [E2 E]].
      injection E as <-. exists u, v. repeat split; auto. }
    split.
    + eapply right_weaken; [apply (pair_right _ _ _ _ Ra Rb)|]. exact W.
    + intros _ p x S. destruct (W p x S) as [u [v [_ [_ ->]]]]. exists (lit "( " ++ u ++ lit ", " ++ v), 32, 41. left.
      split; [unfold show_pair; rewrite <- !app_assoc; auto|lia].
  - (* TTuple *) intros a IHa r IHr [Pa Pr]. destruct (IHa Pa) as [[RS RI] _]. specialize (IHr Pr).
    assert (W : forall p x, shown (TTuple a r) p x -> exists u us, shown a (fst p) u /\ goods r (snd p) /\ shows r (snd p) = Ok us /\
       x = (([123; 32] ++ u) ++ flat_map (fun x => [44; 32] ++ x) us) ++ [32; 125]).
    { intros p x [[G1 G2] E]. cbn [show] in E. apply ok_inv in E. destruct E as [u [E1 E]]. apply ok_inv in E. destruct E as [us [E2 E]].
      injection E as <-. exists u, us. repeat split; auto; unfold show_tuple, commas; rewrite <- !app_assoc; auto. }
    split; [split|].
    + intros p x S. destruct (W p x S) as [u [us [_ [_ [_ ->]]]]].
      exists ((([123; 32] ++ u) ++ flat_map (fun x => [44; 32] ++ x) us) ++ [32]), 125. split; [rewrite <- (app_assoc _ [32]); reflexivity|lia].
    + intros p q x y k k' S S' Hk Hk' E. destruct (W p x S) as [u [us [Su [G [Eu ->]]]]], (W q y S') as [u' [us' [Su' [G' [Eu' ->]]]]].
      rewrite !(app_assoc k), !(app_assoc k') in E. apply app_inv_tail in E.
      destruct (IHr _ _ _ _ _ _ G G' Eu Eu' E) as [E1 E2]. rewrite ?app_assoc in E2.
      destruct (RI _ _ _ _ _ _ Su Su' (spaced_app _ _ (ex_intro _ [123] eq_refl)) (spaced_app _ _ (ex_intro _ [123] eq_refl)) E2) as [E3 E4].
      apply app_inv_tail in E4. split; auto. destruct p, q. cbn in *. congruence.
    + intros _ p x S. destruct (W p x S) as [u [us [_ [_ [_ ->]]]]].
      exists ((([123; 32] ++ u) ++ flat_map (fun x => [44; 32] ++ x) us) ++ [32]), 0, 125. right. split; [rewrite <- (app_assoc _ [32]); reflexivity|lia].
  - (* TSeq *) intros a IHa Pa. destruct (IHa Pa) as [Ra _].
    assert (W : forall l x, shown (TSeq a) l x -> exists ts, Forall2 (shown a) l ts /\ x = [91; 32] ++ commas ts ++ [32; 93]).
    { intros l x [G E]. cbn [show] in E. apply ok_inv in E. destruct E as [ts [E1 E]]. injection E as <-. exists ts. split; auto.
      apply forall2_and; auto. apply mapM_forall2; auto. }
    split.
    + eapply right_weaken; [apply (seq_right _ _ 91 93 Ra); lia|exact W].
    + intros _ l x S. destruct (W l x S) as [ts [_ ->]]. exists ([91; 32] ++ commas ts ++ [32]), 0, 93. right.
      split; [rewrite <- !app_assoc; auto|lia].
  - (* TMap *) intros a IHa b IHb [Pa Pb]. destruct (IHa Pa) as [Ra _], (IHb Pb) as [Rb _].
    assert (W : forall l x, shown (TMap a b) l x -> exists ts,
       Forall2 (fun p x => exists u v, shown a (fst p) u /\ shown b (snd p) v /\ x = show_pair u v) l ts /\ x = [123; 32] ++ commas ts ++ [32; 125]).
    { intros l x [G E]. cbn [show] in E. apply ok_inv in E. destruct E as [ts [E1 E]]. injection E as <-. exists ts. split; auto.
      apply mapM_forall2 in E1. cbn [good] in G. pose proof (forall2_and _ _ _ _ _ _ G E1) as F. clear - F. induction F; constructor; auto.
      destruct H as [[G1 G2] E]. apply ok_inv in E. destruct E as [u [E1 E]]. apply ok_inv in E. destruct E as [v [E2 E]].
      injection E as <-. exists u, v. repeat split; auto. }
    split.
    + eapply right_weaken; [apply (seq_right _ _ 123 125 (pair_right _ _ _ _ Ra Rb)); lia|exact W].
    + intros _ l x S. destruct (W l x S) as [ts [_ ->]]. exists ([123; 32] ++ commas ts ++ [32]), 0, 125. right.
      split; [rewrite <- !app_assoc; auto|lia].
  - (* TPtr *) intros a IHa [Np Pa]. destruct (IHa Pa) as [[RS RI] NN]. specialize (NN Np). split; [split|discriminate].
    + intros [a0|] x [G E]; cbn [show] in E.
      * apply (RS a0 x). split; auto.
      * injection E as <-. exists (lit "(null"), 41. split; auto. lia.
    + intros [a0|] [b0|] x y k k' [G E] [G' E'] Hk Hk' EE; cbn [show] in E, E'.
      * destruct (RI a0 b0 x y k k' (conj G E) (conj G' E') Hk Hk' EE). subst. auto.
      * exfalso. injection E' as <-. symmetry in EE. apply no_null_ok in EE; auto. apply (NN a0). split; auto.
      * exfalso. injection E as <-. apply no_null_ok in EE; auto. apply (NN b0). split; auto.
      * injection E as <-. injection E' as <-. split; auto. apply app_inv_tail in EE. auto.
  - (* TNil *) intros _ [] [] ys ys' X X' _ _ E E' EE. cbn in E, E'. injection E as <-. injection E' as <-. cbn [flat_map] in EE.
    rewrite !app_nil_r in EE. auto.
  - (* TCons *) intros a IHa r IHr [Pa Pr] [a0 p] [b0 q] ys ys' X X' [G1 G2] [G1' G2'] E E' EE. destruct (IHa Pa) as [[RS RI] _]. specialize (IHr Pr).
    cbn [shows fst snd] in *. apply ok_inv in E. destruct E as [u [E1 E]]. apply ok_inv in E. destruct E as [us [E2 E]]. injection E as <-.
    apply ok_inv in E'. destruct E' as [u' [E1' E']]. apply ok_inv in E'. destruct E' as [us' [E2' E']]. injection E' as <-.
    cbn [flat_map] in EE. rewrite !app_assoc in EE.
    destruct (IHr _ _ _ _ _ _ G2 G2' E2 E2' EE) as [-> E0].
    destruct (RI a0 b0 u u' _ _ (conj G1 E1) (conj G1' E1') (spaced_app _ _ (ex_intro _ [44] eq_refl)) (spaced_app _ _ (ex_intro _ [44] eq_refl)) E0) as [-> E3].
    apply app_inv_tail in E3. auto.
Qed.

Lemma mapM_total : forall A B (f : A -> res B) (P : A -> Prop) l, (forall a, P a -> exists y, f a = Ok y) -> Forall P l -> exists ys, mapM f l = Ok ys.
Proof.
  intros A B f P l Hf F. induction F; [exists []; auto|]. destruct (Hf x H) as [y E], IHF as [ys E']. exists (y :: ys). cbn. rewrite E. cbn. rewrite E'. auto.
Qed.

Lemma show_total : (forall t a, good t a -> exists x, show t a = Ok x) /\ (forall r p, goods r p -> exists ys, shows r p = Ok ys).
Proof.
  apply shty_shtys_ind; cbn [sem sems good goods show shows]; intros; eauto.
  - unfold show_utf8. destruct (printUTF8_tokens a H) as [ts [_ [_ [-> _]]]]. cbn. eauto.
  - unfold show_cesu8. destruct (printCESU8_tokens a H) as [ts [_ [_ [-> _]]]]. cbn. eauto.
  - destruct H1, (H _ H1) as [x ->], (H0 _ H2) as [y ->]. cbn. eauto.
  - destruct H1, (H _ H1) as [x ->], (H0 _ H2) as [y ->]. cbn. eauto.
  - destruct (mapM_total _ _ (show a) (good a) a0 H H0) as [ts ->]. cbn. eauto.
  - destruct (mapM_total _ _ (fun p => do x <- show k (fst p); do y <- show v (snd p); Ok (show_pair x y)) (fun p => good k (fst p) /\ good v (snd p)) a) as [ts ->]; auto.
    + intros p [G1 G2]. destruct (H _ G1) as [x ->], (H0 _ G2) as [y ->]. cbn. eauto.
    + cbn. eauto.
  - destruct a0; eauto.
  - destruct H1, (H _ H1) as [x ->], (H0 _ H2) as [y ->]. cbn. eauto.
Qed.

(** ** UTF-16 *)

Definition surr (a : Z) : Prop := 0xD8 <= a <= 0xDF.

(** What one round prints for a unit and for a pair. *)
Definition text2 (a b : Z) : text := if (a =? 0) && (b <=? 0x7f) then validChar2 b else codepage (wrapU 32 (Z.shiftl a 8 + b)).
Definition text4 (a b c d : Z) : text := codepage (unitsCode (unit16 a b) (unit16 c d)).

Definition sw (hi : nat) (f : Z -> Z -> text) (a b : Z) : text := match hi with O => f a b | _ => f b a end.
Definition sw4 (hi : nat) (a b c d : Z) : text := match hi with O => text4 a b c d | _ => text4 b a d c end.

Record step16 (hi : nat) (step : list Z -> Z -> res (text * option Z)) : Prop := {
  s16_one : forall pre a, step (pre ++ [a]) (bsize pre) = UB;
  s16_unit : forall pre a b r, ~ surr (nth hi [a; b] 0) -> step (pre ++ a :: b :: r) (bsize pre) = Ok (sw hi text2 a b, Some (bsize pre + 1));
  s16_pair : forall pre a b c d r, surr (nth hi [a; b] 0) ->
    step (pre ++ a :: b :: c :: d :: r) (bsize pre) = Ok (sw4 hi a b c d, Some (bsize pre + 3));
  s16_cut : forall pre a b r, surr (nth hi [a; b] 0) -> (length r < 2)%nat -> step (pre ++ a :: b :: r) (bsize pre) = UB }.

Lemma surr_ib : forall a, (a <=? 0xD7) || (0xE0 <=? a) = negb (ib 0xD8 a 0xDF).
Proof. intros. rewrite <- not_surrogate. auto. Qed.

Lemma ib_surr : forall a, surr a -> ib 0xD8 a 0xDF = true.
Proof. intros a H. destruct (ib_spec 0xD8 a 0xDF); auto. unfold surr in H. lia. Qed.
Lemma ib_not_surr : forall a, ~ surr a -> ib 0xD8 a 0xDF = false.
Proof. intros a H. destruct (ib_spec 0xD8 a 0xDF); auto. unfold surr in H. lia. Qed.

Lemma surr_dec : forall a, surr a \/ ~ surr a.
Proof. intros. unfold surr. lia. Qed.

Lemma be_step16 : step16 0 printUTF16BEStep.
Proof.
  split; cbn [nth]; intros; unfold printUTF16BEStep; rewrite idx_app0, !idx_app, !bsize_app, !gtb_shift by lia.
  - cbn. destruct (a =? 0); cbn; auto. destruct (_ || _); auto.
  - pose proof (bsize_nonneg r). rewrite (gtb_false 2) by (sizes; lia). change (idx (a :: b :: r) 0) with (Ok a).
    change (idx (a :: b :: r) 1) with (Ok b). cbn [bind]. rewrite band_ok. cbn [bind app sw]. unfold text2.
    destruct ((a =? 0) && (b <=? 0x7f)); auto. rewrite surr_ib, ib_not_surr by auto. auto.
  - pose proof (bsize_nonneg r). rewrite (gtb_false 2), (gtb_false 4) by (sizes; lia). change (idx (a :: b :: c :: d :: r) 0) with (Ok a).
    change (idx (a :: b :: c :: d :: r) 1) with (Ok b). change (idx (a :: b :: c :: d :: r) 2) with (Ok c).
    change (idx (a :: b :: c :: d :: r) 3) with (Ok d). cbn [bind]. rewrite band_ok. cbn [bind app sw4].
    unfold surr in H. destruct (Z.eqb_spec a 0); [lia|]. cbn [andb]. rewrite surr_ib, ib_surr by auto. auto.
  - change (idx (a :: b :: r) 0) with (Ok a). change (idx (a :: b :: r) 1) with (Ok b). cbn [bind]. rewrite band_ok. cbn [bind].
    pose proof H as S. unfold surr in S. destruct (Z.eqb_spec a 0); [lia|]. cbn [andb]. rewrite surr_ib, ib_surr by auto. cbn [negb].
    rewrite (gtb_true 4) by (sizes; unfold bsize; lia). destruct r as [|c [|d r]]; cbn in *; auto. lia.
Qed.

Lemma le_step16 : step16 1 printUTF16LEStep.
Proof.
  split; cbn [nth]; intros; unfold printUTF16LEStep; rewrite idx_app0, !idx_app, !bsize_app, !gtb_shift by lia.
  - cbn. auto.
  - pose proof (bsize_nonneg r). rewrite (gtb_false 2) by (sizes; lia). change (idx (a :: b :: r) 0) with (Ok a).
    change (idx (a :: b :: r) 1) with (Ok b). cbn [bind app sw]. unfold text2.
    destruct ((b =? 0) && (a <=? 0x7f)); auto. rewrite surr_ib, ib_not_surr by auto. auto.
  - pose proof (bsize_nonneg r). rewrite (gtb_false 2), (gtb_false 4) by (sizes; lia). change (idx (a :: b :: c :: d :: r) 0) with (Ok a).
    change (idx (a :: b :: c :: d :: r) 1) with (Ok b). change (idx (a :: b :: c :: d :: r) 2) with (Ok c).
    change (idx (a :: b :: c :: d :: r) 3) with (Ok d). cbn [bind app sw4].
    unfold surr in H. destruct (Z.eqb_spec b 0); [lia|]. cbn [andb]. rewrite surr_ib, ib_surr by auto. auto.
  - change (idx (a :: b :: r) 0) with (Ok a). change (idx (a :: b :: r) 1) with (Ok b). cbn [bind].
    pose proof H as S. unfold surr in S. destruct (Z.eqb_spec b 0); [lia|]. cbn [andb]. rewrite surr_ib, ib_surr by auto. cbn [negb].
    rewrite (gtb_true 4) by (sizes; unfold bsize; lia). destruct r as [|c [|d r]]; cbn in *; auto. lia.
Qed.

Lemma bsize2 : forall pre a b, bsize (pre ++ [a; b]) = bsize pre + 1 + 1.
Proof. intros. rewrite bsize_app. change (bsize [a; b]) with 2. lia. Qed.
Lemma bsize4 : forall pre a b c d, bsize (pre ++ [a; b; c; d]) = bsize pre + 3 + 1.
Proof. intros. rewrite bsize_app. change (bsize [a; b; c; d]) with 4. lia. Qed.

Lemma loop16 : forall hi step, step16 hi step -> forall fuel pre suf, (length suf <= fuel)%nat ->
  (whole16 hi suf /\ exists t, printLoop step fuel (pre ++ suf) (bsize pre) = Ok t) \/
  (~ whole16 hi suf /\ printLoop step fuel (pre ++ suf) (bsize pre) = UB).
Proof.
  intros hi step S. induction fuel as [|fuel IH]; intros pre suf Hf.
  - destruct suf; [|cbn in Hf; lia]. left. split; [constructor|]. exists []. cbn [printLoop]. rewrite app_nil_r, Z.ltb_irrefl. auto.
  - cbn [printLoop]. destruct suf as [|a suf].
    { left. split; [constructor|]. exists []. rewrite app_nil_r, Z.ltb_irrefl. auto. }
    assert (T : (bsize pre <? bsize (pre ++ a :: suf)) = true).
    { apply Z.ltb_lt. rewrite bsize_app, bsize_cons. pose proof (bsize_nonneg suf). lia. }
    rewrite T. destruct suf as [|b suf].
    { right. split; [intros W; inversion W|]. rewrite (s16_one _ _ S). auto. }
    destruct (surr_dec (nth hi [a; b] 0)) as [D|D].
    + destruct (Nat.lt_ge_cases (length suf) 2) as [L|L].
      * right. split; [|rewrite (s16_cut _ _ S); auto].
        intros W. inversion W; subst; [unfold surr in D; tauto|cbn in L; lia].
      * destruct suf as [|c [|d suf]]; cbn in L; try lia. rewrite (s16_pair _ _ S) by auto. cbn [bind fst snd].
        rewrite <- (bsize4 pre a b c d). replace (pre ++ a :: b :: c :: d :: suf) with ((pre ++ [a; b; c; d]) ++ suf) by (rewrite <- app_assoc; auto).
        destruct (IH (pre ++ [a; b; c; d]) suf ltac:(cbn in Hf; lia)) as [[W [t ->]]|[W ->]].
        -- left. split; [apply whole16_pair; auto|]. cbn. eauto.
        -- right. split; auto. intros W'. apply W. inversion W'; subst; auto. unfold surr in D. tauto.
    + rewrite (s16_unit _ _ S) by auto. cbn [bind fst snd].
      rewrite <- (bsize2 pre a b). replace (pre ++ a :: b :: suf) with ((pre ++ [a; b]) ++ suf) by (rewrite <- app_assoc; auto).
      destruct (IH (pre ++ [a; b]) suf ltac:(cbn in Hf; lia)) as [[W [t ->]]|[W ->]].
      * left. split; [apply whole16_unit; auto|]. cbn. eauto.
      * right. split; auto. intros W'. apply W. inversion W'; subst; auto. unfold surr in D. tauto.
Qed.

Lemma text2_ok : forall a b, byte a -> byte b -> ~ surr a -> text2 a b = esc16 (a * 256 + b).
Proof.
  intros a b Ha Hb S. unfold text2, esc16, validChar2, control. unfold byte, surr in *.
  destruct (Z.eqb_spec a 0); cbn [andb].
  - subst a. replace (0 * 256 + b) with b by lia. destruct (Z.leb_spec b 0x7f).
    + destruct (Z.eqb_spec b 92); auto. destruct (_ || _).
      * rewrite hex4_ok by (unfold byte; lia). unfold esc_u. rewrite Z.div_small, Z.mod_small by lia. auto.
      * destruct (Z.ltb_spec b 128); auto. lia.
    + rewrite shl8, wrapU_small, codepage_ok by lia. replace (0 * 256 + b) with b by lia.
      destruct (Z.eqb_spec b 92); [lia|]. destruct (Z.ltb_spec b 32), (Z.eqb_spec b 127), (Z.ltb_spec b 128); try lia. auto.
  - rewrite shl8, wrapU_small, codepage_ok by lia. set (c := a * 256 + b). assert (256 <= c) by (unfold c; lia).
    destruct (Z.eqb_spec c 92); [lia|]. destruct (Z.ltb_spec c 32), (Z.eqb_spec c 127), (Z.ltb_spec c 128); try lia. auto.
Qed.

Lemma text4_ok : forall a b c d, byte a -> byte b -> byte c -> byte d -> 0xD8 <= a <= 0xDB -> 0xDC <= c <= 0xDF ->
  text4 a b c d = esc16 (0x10000 + ((a - 0xD8) * 256 + b) * 1024 + ((c - 0xDC) * 256 + d)).
Proof.
  intros a b c d Ha Hb Hc Hd Sa Sc. unfold text4. rewrite !unit16_ok by auto. rewrite unitsCode_ok by auto. unfold byte in *.
  rewrite codepage_ok by lia. unfold esc16, control. set (x := 0x10000 + _ + _). assert (0x10000 <= x) by (unfold x; lia).
  destruct (Z.eqb_spec x 92); [lia|]. destruct (Z.ltb_spec x 32), (Z.eqb_spec x 127), (Z.ltb_spec x 128); try lia. auto.
Qed.

Definition enc16 (hi : nat) (c : Z) : list Z := match hi with O => utf16be c | _ => utf16le c end.

Lemma loop16_text : forall hi step, step16 hi step -> (hi < 2)%nat -> forall cs fuel pre, Forall scalar cs ->
  (length (flat_map (enc16 hi) cs) <= fuel)%nat ->
  printLoop step fuel (pre ++ flat_map (enc16 hi) cs) (bsize pre) = Ok (flat_map esc16 cs).
Proof.
  intros hi step S Hhi. induction cs as [|c cs IH]; intros fuel pre Hc Hf.
  - cbn [flat_map]. destruct fuel; cbn [printLoop]; rewrite app_nil_r, Z.ltb_irrefl; auto.
  - inversion Hc; subst. cbn [flat_map] in *. rewrite app_length in Hf.
    destruct (Z_lt_le_dec c 0x10000) as [L|L].
    + assert (exists a b, byte a /\ byte b /\ c = a * 256 + b) as [a [b [Ha [Hb Ec]]]].
      { destruct (bmp_digits16 c) as [a [b [Ha [Hb Ec]]]]; [unfold scalar in H1; lia|]. exists a, b. unfold byte. repeat split; auto; lia. }
      assert (Sa : ~ surr a) by (unfold surr, scalar, byte in *; lia).
      unfold byte in Ha, Hb. destruct (utf16_bmp a b ltac:(lia) ltac:(lia)) as [Eb El]. rewrite <- Ec in Eb, El.
      assert (E : enc16 hi c = match hi with O => [a; b] | _ => [b; a] end) by (destruct hi; cbn; auto).
      assert (Sh : ~ surr (nth hi (enc16 hi c) 0)) by (rewrite E; destruct hi as [|[|]]; cbn; auto; lia).
      rewrite E in *. destruct fuel as [|fuel]; [destruct hi; cbn in Hf; lia|]. cbn [printLoop].
      destruct hi as [|[|hi]]; [| |lia]; cbn [app length] in *.
      * assert (T : (bsize pre <? bsize (pre ++ a :: b :: flat_map (enc16 0) cs)) = true).
        { apply Z.ltb_lt. rewrite bsize_app, !bsize_cons. pose proof (bsize_nonneg (flat_map (enc16 0) cs)). lia. }
        rewrite T, (s16_unit _ _ S) by auto. cbn [bind fst snd sw]. rewrite <- (bsize2 pre a b).
        replace (pre ++ a :: b :: flat_map (enc16 0) cs) with ((pre ++ [a; b]) ++ flat_map (enc16 0) cs) by (rewrite <- app_assoc; auto).
        rewrite IH by (auto; lia). cbn. rewrite text2_ok by (auto; unfold byte; lia). subst c. auto.
      * assert (T : (bsize pre <? bsize (pre ++ b :: a :: flat_map (enc16 1) cs)) = true).
        { apply Z.ltb_lt. rewrite bsize_app, !bsize_cons. pose proof (bsize_nonneg (flat_map (enc16 1) cs)). lia. }
        rewrite T, (s16_unit _ _ S) by auto. cbn [bind fst snd sw]. rewrite <- (bsize2 pre b a).
        replace (pre ++ b :: a :: flat_map (enc16 1) cs) with ((pre ++ [b; a]) ++ flat_map (enc16 1) cs) by (rewrite <- app_assoc; auto).
        rewrite IH by (auto; lia). cbn. rewrite text2_ok by (auto; unfold byte; lia). subst c. auto.
    + unfold scalar in H1. destruct (supp_digits16 c ltac:(lia)) as [a [b [d [e [Ha [Hb [Hd [He Ec]]]]]]]].
      destruct (utf16_pair a b d e Ha Hb Hd He) as [Eb El]. rewrite <- Ec in Eb, El.
      assert (E : enc16 hi c = match hi with O => utf16be c | _ => utf16le c end) by (destruct hi; auto).
      rewrite Eb, El in E. rewrite E in *.
      destruct fuel as [|fuel]; [destruct hi; cbn in Hf; lia|]. cbn [printLoop].
      destruct hi as [|[|hi]]; [| |lia]; cbn [app length] in *.
      * match goal with |- context [bsize pre <? bsize ?l] => assert (T : (bsize pre <? bsize l) = true) end.
        { apply Z.ltb_lt. rewrite bsize_app, !bsize_cons. pose proof (bsize_nonneg (flat_map (enc16 0) cs)). lia. }
        rewrite T, (s16_pair _ _ S) by (unfold surr; cbn [nth]; lia). cbn [bind fst snd sw4].
        match goal with |- context [pre ++ ?p :: ?q :: ?r :: ?s :: ?l] =>
          rewrite <- (bsize4 pre p q r s); replace (pre ++ p :: q :: r :: s :: l) with ((pre ++ [p; q; r; s]) ++ l) by (rewrite <- app_assoc; auto) end.
        rewrite IH by (auto; lia). cbn [bind]. rewrite text4_ok by (unfold byte; lia). f_equal. f_equal. f_equal. lia.
      * match goal with |- context [bsize pre <? bsize ?l] => assert (T : (bsize pre <? bsize l) = true) end.
        { apply Z.ltb_lt. rewrite bsize_app, !bsize_cons. pose proof (bsize_nonneg (flat_map (enc16 1) cs)). lia. }
        rewrite T, (s16_pair _ _ S) by (unfold surr; cbn [nth]; lia). cbn [bind fst snd sw4].
        match goal with |- context [pre ++ ?p :: ?q :: ?r :: ?s :: ?l] =>
          rewrite <- (bsize4 pre p q r s); replace (pre ++ p :: q :: r :: s :: l) with ((pre ++ [p; q; r; s]) ++ l) by (rewrite <- app_assoc; auto) end.
        rewrite IH by (auto; lia). cbn [bind]. rewrite text4_ok by (unfold byte; lia). f_equal. f_equal. f_equal. lia.
Qed.
