(** How likely each generated character and text is: lemmas. *)
From Coq Require Import List ZArith QArith Lia Lqa Bool SpecFloat.
From Verif Require Import Base TreeModel IntegralModel IntegralSpec IntegralProof RandomModel ListModel ContainerModel ContainerSpec ContainerProof GenModel Utf8Model UtfSpec UnicodeGenModel UnicodeGenProof PropUnicode.
From Verif Require Import ChanceSpec ChanceProof ChanceLawProof ChanceCombProof EndingProof BugChanceSpec BugChanceProof.
Import ListNotations.

(** What a generator can return is all its plan ends with. *)
Lemma play_leaves : forall A (P : A -> Prop) (p : plan A), (forall (r : rst replay) a r', play p r = Ok (a, r') -> P a) -> leaves P p.
Proof.
  intros A P p. induction p as [[a| | |]|lo hi next IH]; intros H; cbn [leaves]; auto.
  - apply (H ([] : rst replay) a []). reflexivity.
  - intros z Hz. apply IH. intros r a r' Hp. apply (H (z :: r : rst replay) a r'). cbn [play]. destruct (Z.leb_spec lo hi); [|lia].
    unfold unif, replay, replay_unif. replace ((lo <=? z)%Z && (z <=? hi)%Z)%bool with true by (symmetry; apply andb_true_iff; split; apply Z.leb_le; lia). exact Hp.
Qed.
Lemma law_leaves : forall A (g : forall E, gen E A) (P : A -> Prop) p, law g p -> (forall E r t r', g E r = Ok (t, r') -> P (root t)) -> leaves P p.
Proof.
  intros A g P p L H. apply play_leaves. intros r a r' Hp. rewrite <- L in Hp. destruct (g replay r) as [[t r1]| | |] eqn:E; try discriminate. cbn [seen] in Hp. inversion Hp; subst. exact (H _ _ _ _ E).
Qed.

Section Coding.
Variables (co : coding) (enc : Z -> list Z).
Hypothesis Hco : In (co, enc) forms.

(** The loop that encodes ends like the loop that only draws. *)
Lemma encodeLoop_fails : forall E (g : gen E Z), (forall r t r', g r = Ok (t, r') -> scalar (root t)) -> forall n chars pos r,
  match times n g r with Ok _ => True | UB => encodeLoop co g n chars pos r = UB | Throw e => encodeLoop co g n chars pos r = Throw e | OutOfFuel => encodeLoop co g n chars pos r = OutOfFuel end.
Proof.
  intros E g Hg n. induction n as [|n IH]; intros chars pos r; [exact I|]. destruct (g r) as [[t r1]| | |] eqn:Et.
  - assert (S := Hg _ _ _ Et). assert (B : encodeLoop co g (Datatypes.S n) chars pos r = encodeLoop co g n (chars ++ enc (root t)) (pos ++ [wrapS 32 (bsize chars)]) r1).
    { cbn [encodeLoop]. unfold gbind, gfail. rewrite Et, (ce_encode co enc (forms_exact co enc Hco)) by exact S. reflexivity. }
    rewrite B. specialize (IH (chars ++ enc (root t)) (pos ++ [wrapS 32 (bsize chars)]) r1). cbn [times]. unfold gbind. rewrite Et. destruct (times n g r1) as [[l r2]| | |]; auto.
  - cbn [times encodeLoop]. unfold gbind. rewrite Et. reflexivity.
  - cbn [times encodeLoop]. unfold gbind. rewrite Et. reflexivity.
  - cbn [times encodeLoop]. unfold gbind. rewrite Et. reflexivity.
Qed.
Lemma encoded_law : forall (g : forall E, gen E Z) p mn mx, law g p -> (forall E r t r', g E r = Ok (t, r') -> scalar (root t)) -> (0 <= mn)%Z -> (mn <= mx)%Z -> (6 * mx + 2 < 2 ^ 31)%Z ->
  law (fun E => arbi_encoded co (g E) {| minSize := mn; maxSize := mx |}) (pmap (flat_map enc) (list_plan mn mx p)).
Proof.
  intros g p mn mx L Hg H0 H1 H2 E r. destruct (C55_generates co enc Hco E (g E) mn mx r H0 H1 H2) as (n & r1 & Hd & Hn & K).
  assert (D : unif E mn mx r = (n, r1)). { unfold draw in Hd. destruct (mn <=? mx)%Z; [|discriminate]. destruct (unif E mn mx r). inversion Hd. reflexivity. }
  unfold pmap, list_plan. cbn [pbind play]. destruct (Z.leb_spec mn mx); [|lia]. rewrite D. cbn [fst snd]. rewrite play_bind.
  assert (T := times_fits E Z (g E) p (L E) (Z.to_nat n) r1). unfold gbind. rewrite <- T.
  destruct (times (Z.to_nat n) (g E) r1) as [[vec r']| | |] eqn:Et; cbn [seen].
  - apply times_ok in Et. destruct Et as [Dr Len].
    assert (Sc : Forall scalar (map root vec)). { clear - Dr Hg. induction Dr; cbn [map]; constructor; eauto. }
    destruct (K vec r' Dr ltac:(unfold size; lia) Sc) as (t & Ea & Rt & _). rewrite Ea. cbn [seen play]. rewrite Rt. reflexivity.
  - assert (F := encodeLoop_fails E (g E) (Hg E) (Z.to_nat n) [] [] r1). rewrite Et in F. unfold arbi_encoded, gbind. rewrite containerSize_eq by (auto; unfold UINT32_MAX; lia). rewrite Hd, F. reflexivity.
  - assert (F := encodeLoop_fails E (g E) (Hg E) (Z.to_nat n) [] [] r1). rewrite Et in F. unfold arbi_encoded, gbind. rewrite containerSize_eq by (auto; unfold UINT32_MAX; lia). rewrite Hd, F. reflexivity.
  - assert (F := encodeLoop_fails E (g E) (Hg E) (Z.to_nat n) [] [] r1). rewrite Et in F. unfold arbi_encoded, gbind. rewrite containerSize_eq by (auto; unfold UINT32_MAX; lia). rewrite Hd, F. reflexivity.
Qed.
(** Events of the text instead of its encoding. *)
Lemma encoded_prob : forall p mn mx ev ev', leaves scalar p -> (forall codes, Forall scalar codes -> ev (flat_map enc codes) = ev' codes) ->
  (prob (pmap (flat_map enc) (list_plan mn mx p)) ev == prob (list_plan mn mx p) ev')%Q.
Proof.
  intros p mn mx ev ev' Lv H. rewrite prob_map. unfold prob. apply (mean_leaves _ (Forall scalar)); [apply leaves_list, Lv| |].
  - intros a Ha. cbn [when]. rewrite H by exact Ha. reflexivity.
  - intros [a| | |] Hx; try reflexivity. destruct (Hx a eq_refl).
Qed.
End Coding.
