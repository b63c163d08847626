From Coq Require Import List ZArith Bool Lia.
From Verif Require Import Base PrintModel PrintSpec PrintProof SeedModel SeedSpec.
Import ListNotations.
Local Open Scope Z_scope.

Lemma isSpace_iff : forall c, isSpace c = true <-> blank c.
Proof.
  intros c. unfold isSpace, blank. rewrite orb_true_iff, andb_true_iff, !Z.leb_le, Z.eqb_eq. cbn [In]. split; [|intuition lia].
  intros H. assert (c = 9 \/ c = 10 \/ c = 11 \/ c = 12 \/ c = 13 \/ c = 32) by lia. intuition.
Qed.
Lemma isDigit_iff : forall c, isDigit c = true <-> decimal c.
Proof.
  intros c. unfold isDigit, decimal. rewrite andb_true_iff, !Z.leb_le. cbn [In]. split; [|intuition lia].
  intros H. assert (c = 48 \/ c = 49 \/ c = 50 \/ c = 51 \/ c = 52 \/ c = 53 \/ c = 54 \/ c = 55 \/ c = 56 \/ c = 57) by lia. intuition.
Qed.
Lemma isDigit_range : forall c, isDigit c = true <-> 48 <= c <= 57.
Proof. intros. unfold isDigit. rewrite andb_true_iff, !Z.leb_le. lia. Qed.

Local Opaque blank decimal.

Lemma number_digits : forall l n, number l n -> Forall (fun c => isDigit c = true) l /\ 0 <= n.
Proof.
  induction 1 as [|l n d H [F G] R]; [auto using Z.le_refl|]. split; [|lia]. apply Forall_app. split; auto. constructor; auto. apply isDigit_range. lia.
Qed.

Lemma scan_app : forall l rest n acc, number l n -> scanDigits acc (l ++ rest) = scanDigits (acc * 10 ^ Z.of_nat (length l) + n) rest.
Proof.
  intros l rest n acc H. revert rest acc. induction H as [|l n d H IH R]; intros rest acc.
  - cbn. f_equal. lia.
  - rewrite <- app_assoc, IH. cbn [app scanDigits]. assert (isDigit (48 + d) = true) as -> by (apply isDigit_range; lia).
    rewrite app_length. cbn [length]. rewrite Nat2Z.inj_add. cbn [Z.of_nat]. rewrite Z.pow_add_r by lia. f_equal. change (10 ^ Z.of_nat 1) with 10. lia.
Qed.
Lemma scan_stop : forall rest acc, ~ starts decimal rest -> scanDigits acc rest = acc.
Proof. intros [|c r] acc H; auto. cbn in *. destruct (isDigit c) eqn:E; auto. apply isDigit_iff in E. contradiction. Qed.
Lemma scan_number : forall l rest n, number l n -> ~ starts decimal rest -> scanDigits 0 (l ++ rest) = n.
Proof. intros. rewrite (scan_app _ _ n) by auto. rewrite scan_stop by auto. lia. Qed.

Lemma number_ex : forall l, Forall (fun c => isDigit c = true) l -> exists n, number l n.
Proof.
  intros l. induction l as [|c l IH] using rev_ind; intros F; [exists 0; constructor|].
  apply Forall_app in F. destruct F as [F G]. destruct (IH F) as [n H]. inversion G as [|? ? D]; subst. apply isDigit_range in D.
  exists (10 * n + (c - 48)). replace c with (48 + (c - 48)) at 1 by lia. constructor; auto; lia.
Qed.

Lemma digits_split : forall t, exists l rest, t = l ++ rest /\ Forall (fun c => isDigit c = true) l /\ ~ starts decimal rest.
Proof.
  induction t as [|c t (l & rest & -> & F & N)]; [exists [], []; cbn; auto|].
  destruct (isDigit c) eqn:D; [exists (c :: l), rest; auto|]. exists [], (c :: l ++ rest). cbn. repeat split; auto.
  rewrite <- isDigit_iff. congruence.
Qed.

Lemma skip_spec : forall bs t, Forall blank bs -> skipSpaces (bs ++ t) = skipSpaces t.
Proof. intros bs t. induction 1 as [|c bs H F IH]; auto. cbn. apply isSpace_iff in H. rewrite H. auto. Qed.
Lemma skip_split : forall t, exists bs, t = bs ++ skipSpaces t /\ Forall blank bs /\ ~ starts blank (skipSpaces t).
Proof.
  induction t as [|c t (bs & E & F & N)]; [exists []; cbn; auto|]. cbn. destruct (isSpace c) eqn:S.
  - exists (c :: bs). cbn. split; [congruence|]. split; auto. constructor; auto. apply isSpace_iff. auto.
  - exists []. cbn. repeat split; auto. rewrite <- isSpace_iff. congruence.
Qed.

Lemma chk0 : chk64 0 = Ok 0.
Proof. reflexivity. Qed.

Lemma atoll_means : forall t z, means t z -> atoll t = chk64 z.
Proof.
  intros t z (bs & sg & ds & rest & n & -> & B & N & R & S). unfold atoll. rewrite skip_spec by auto.
  pose proof (scan_number _ _ _ N R) as SN.
  destruct S as [(-> & Nx & ->)|[(-> & ->)|(-> & ->)]].
  - cbn [app]. destruct (ds ++ rest) as [|c r] eqn:E.
    + cbn. cbn in SN. subst n. reflexivity.
    + cbn in Nx. cbn [skipSpaces]. assert (isSpace c = false) as ->. { destruct (isSpace c) eqn:Sc; auto. apply isSpace_iff in Sc. tauto. }
      destruct (Z.eqb_spec c 45); [tauto|]. destruct (Z.eqb_spec c 43); [tauto|]. rewrite SN. reflexivity.
  - cbn [app skipSpaces]. change (isSpace 43) with false. cbn iota. change (43 =? 45) with false. change (43 =? 43) with true. cbn iota. rewrite SN. reflexivity.
  - cbn [app skipSpaces]. change (isSpace 45) with false. cbn iota. change (45 =? 45) with true. cbn iota. rewrite SN. reflexivity.
Qed.

Lemma means_ex : forall t, exists z, means t z.
Proof.
  intros t. destruct (skip_split t) as (bs & E & B & N). remember (skipSpaces t) as u. clear Hequ. subst t. destruct u as [|c r].
  - exists 0, bs, [], [], [], 0. cbn. repeat split; auto; try tauto. constructor.
  - destruct (Z.eq_dec c 45) as [->|N1]; [|destruct (Z.eq_dec c 43) as [->|N2]].
    + destruct (digits_split r) as (l & rest & -> & F & R). destruct (number_ex l F) as [n H]. exists (- n), bs, [45], l, rest, n. cbn. intuition.
    + destruct (digits_split r) as (l & rest & -> & F & R). destruct (number_ex l F) as [n H]. exists n, bs, [43], l, rest, n. cbn. intuition.
    + destruct (digits_split (c :: r)) as (l & rest & E & F & R). destruct (number_ex l F) as [n H]. exists n, bs, [], l, rest, n. rewrite <- E. cbn in *. intuition.
Qed.

Lemma number_fun : forall l n m, number l n -> number l m -> n = m.
Proof.
  intros l n m H H'. rewrite <- (scan_number l [] n), <- (scan_number l [] m); auto.
Qed.
Lemma number_inj0 : forall l, Forall (fun c => isDigit c = true) l -> number l (read_digits l).
Proof.
  intros l. induction l as [|c l IH] using rev_ind; intros F; [constructor|].
  apply Forall_app in F. destruct F as [F G]. inversion G as [|? ? D]; subst. apply isDigit_range in D.
  unfold read_digits in *. rewrite fold_left_app. cbn [fold_left]. specialize (IH F).
  replace c with (48 + (c - 48)) at 1 by lia. replace (fold_left _ l 0 * 10 + (c - 48)) with (10 * fold_left (fun n c => n * 10 + (c - 48)) l 0 + (c - 48)) by lia.
  constructor; auto; lia.
Qed.

Local Transparent blank decimal.
Lemma dec_means : forall n, 0 <= n -> means (dec n) n.
Proof.
  intros n Hn. unfold dec. destruct (Z.ltb_spec n 0); [lia|]. destruct (numeral_ok n Hn) as (F & NE & R).
  assert (F' : Forall (fun c => isDigit c = true) (numeral 10 n)) by (eapply Forall_impl; [|exact F]; intros c D; apply isDigit_range; exact D).
  exists [], [], (numeral 10 n), [], n. cbn [app]. rewrite app_nil_r. repeat split; auto.
  - rewrite <- R at 2. apply number_inj0. auto.
  - left. split; auto. split; auto. destruct (numeral 10 n) as [|c r]; [congruence|]. inversion F as [|? ? D]; subst. cbn. unfold digit_char, blank in *. cbn [In]. lia.
Qed.

Lemma means_fun_range : forall t z w, means t z -> means t w -> chk64 z = chk64 w.
Proof. intros t z w A B. rewrite <- (atoll_means _ _ A), <- (atoll_means _ _ B). auto. Qed.

Local Opaque blank decimal.
(** the value itself, without the range check *)
Definition rawValue (t : text) : Z :=
  match skipSpaces t with
  | [] => 0
  | c :: r => if c =? 45 then - scanDigits 0 r else if c =? 43 then scanDigits 0 r else scanDigits 0 (c :: r)
  end.
Lemma raw_means : forall t z, means t z -> rawValue t = z.
Proof.
  intros t z (bs & sg & ds & rest & n & -> & B & N & R & S). unfold rawValue. rewrite skip_spec by auto.
  pose proof (scan_number _ _ _ N R) as SN.
  destruct S as [(-> & Nx & ->)|[(-> & ->)|(-> & ->)]].
  - cbn [app]. destruct (ds ++ rest) as [|c r] eqn:E.
    + cbn. cbn in SN. auto.
    + cbn in Nx. cbn [skipSpaces]. assert (isSpace c = false) as ->. { destruct (isSpace c) eqn:Sc; auto. apply isSpace_iff in Sc. tauto. }
      destruct (Z.eqb_spec c 45); [tauto|]. destruct (Z.eqb_spec c 43); [tauto|]. exact SN.
  - cbn [app skipSpaces]. change (isSpace 43) with false. cbn iota. change (43 =? 45) with false. change (43 =? 43) with true. cbn iota. exact SN.
  - cbn [app skipSpaces]. change (isSpace 45) with false. cbn iota. change (45 =? 45) with true. cbn iota. congruence.
Qed.
Lemma means_fun : forall t z w, means t z -> means t w -> z = w.
Proof. intros t z w A B. rewrite <- (raw_means _ _ A). apply raw_means. auto. Qed.
Lemma means_raw : forall t, means t (rawValue t).
Proof. intros t. destruct (means_ex t) as [z H]. rewrite (raw_means _ _ H). auto. Qed.
