(** A thread running alone on the slot bitmap. *)
From Coq Require Import List ZArith Lia Bool Arith.
From Verif Require Import Base TupleModel TupleProof BitmapModel BitmapSpec BitmapProof.
Import ListNotations.
Local Open Scope Z_scope.

Lemma setnth_twice : forall X (l : list X) n x y, set_nth n x (set_nth n y l) = set_nth n x l.
Proof. induction l; destruct n; simpl; intros; f_equal; auto. Qed.
Lemma setnth_same : forall X (l : list X) n x, nth_error l n = Some x -> set_nth n x l = l.
Proof. induction l; destruct n; simpl; intros; try discriminate; f_equal; auto. congruence. Qed.
Lemma put_twice : forall m i a b, put_slot (put_slot m i a) i b = put_slot m i b.
Proof. intros. apply setnth_twice. Qed.

Definition place (c : config) (t : nat) (m : list slot) (th : thread) : config := {| slots := m; threads := set_nth t th (threads c) |}.
Lemma place_place : forall c t m th m' th', place (place c t m th) t m' th' = place c t m' th'.
Proof. intros. unfold place. simpl. rewrite setnth_twice. auto. Qed.
Lemma place_at : forall c t m th th0, nth_error (threads c) t = Some th0 -> nth_error (threads (place c t m th)) t = Some th.
Proof. intros. simpl. eapply setnth_at; eauto. Qed.
Lemma place_same : forall c t th, nth_error (threads c) t = Some th -> place c t (slots c) th = c.
Proof. intros [m l] t th H. unfold place. simpl in *. rewrite setnth_same; auto. Qed.

Lemma alone_S : forall size k t c th o, nth_error (threads c) t = Some th -> advance size (at_ th) (slots c) = Some o ->
  alone size (S k) t c = alone size k t (place c t (left_by o) (settle th o)).
Proof. intros size k t c th o H1 H2. simpl. rewrite H1, H2. reflexivity. Qed.
Lemma alone_add : forall size a b t c, alone size (a + b) t c = alone size b t (alone size a t c).
Proof.
  induction a as [|a IH]; intros b t c; auto. simpl. destruct (nth_error (threads c) t) as [th|] eqn:E1.
  - destruct (advance size (at_ th) (slots c)) as [o|] eqn:E2; auto. destruct b; simpl; auto. rewrite E1, E2. auto.
  - destruct b; simpl; auto. rewrite E1. auto.
Qed.
Lemma alone_exec : forall size b k t c, exists ls, exec size b c ls (alone size k t c).
Proof.
  intros size b k t. assert (H : forall c0 c ls, exec size b c0 ls c -> exists ls', exec size b c0 ls' (alone size k t c)).
  { induction k as [|k IH]; intros c0 c ls H; simpl; eauto. destruct (nth_error (threads c) t) as [th|] eqn:E1; eauto.
    destruct (advance size (at_ th) (slots c)) as [o|] eqn:E2; eauto. eapply IH. econstructor; [exact H|]. eapply st_advance; eauto. }
  intros c. eapply H. constructor.
Qed.

Definition busy (c : config) (n : Z) : Prop := idx (slots c) n <> Ok Available.

Lemma alone_scan : forall size t ow r rest c, length (slots c) = size -> Forall (fun i => 0 <= i < Z.of_nat size) rest ->
  nth_error (threads c) t = Some {| at_ := Scan r rest; owns := ow |} ->
  (exists a i b, rest = a ++ i :: b /\ Forall (busy c) a /\ idx (slots c) i = Ok Available /\
     alone size (length a + 3) t c = place c t (put_slot (slots c) i Unavailable) {| at_ := Idle; owns := i :: ow |}) \/
  (Forall (busy c) rest /\ alone size (length rest) t c = place c t (slots c) {| at_ := Scan r []; owns := ow |}).
Proof.
  intros size t ow r rest. induction rest as [|i rest IH]; intros c L F H.
  - right. split; auto. simpl. rewrite place_same; auto.
  - inversion F as [|? ? Hi F']; subst. destruct (idx_some _ _ Hi) as [s Hs].
    assert (A : advance (length (slots c)) (Scan r (i :: rest)) (slots c) =
      Some match cas (slots c) i Available Changing with Ok (true, m') => Go (TakeCheck i) m' | Ok (false, m') => Go (Scan r rest) m' | _ => Go Broken (slots c) end)
      by (destruct r; reflexivity).
    rewrite (cas_ok _ _ _ _ _ Hs) in A. destruct (slot_eqb s Available) eqn:E.
    + assert (s = Available) by (destruct s; simpl in E; congruence). subst s. left. exists [], i, rest. repeat split; auto. simpl app. cbn [length plus].
      rewrite (alone_S _ _ _ _ _ _ H A). cbn [left_by settle at_ owns].
      erewrite alone_S; [|eapply place_at; eauto|cbn [at_ advance slots place]; rewrite (idx_put _ _ _ _ _ Hs), Z.eqb_refl; reflexivity].
      cbn [left_by settle at_ owns slots place]. rewrite place_place.
      erewrite alone_S; [|eapply place_at; eauto|cbn [at_ advance slots place]; reflexivity].
      cbn [left_by settle at_ owns slots place]. rewrite place_place, put_twice.
      assert (Hm1 : (i =? -1) = false) by (apply Z.eqb_neq; lia). rewrite Hm1. reflexivity.
    + assert (Hb : busy c i) by (unfold busy; rewrite Hs; destruct s; simpl in E; congruence).
      assert (H' : nth_error (threads (place c t (slots c) {| at_ := Scan r rest; owns := ow |})) t = Some {| at_ := Scan r rest; owns := ow |}) by (eapply place_at; eauto).
      destruct (IH (place c t (slots c) {| at_ := Scan r rest; owns := ow |}) eq_refl F' H') as [[a [j [b [-> [Ha [Hj HA]]]]]]|[Ha HA]].
      * left. exists (i :: a), j, b. repeat split; auto. cbn [length plus]. rewrite (alone_S _ _ _ _ _ _ H A). cbn [left_by settle at_ owns].
        cbn [slots place] in HA. etransitivity; [exact HA|]. apply place_place.
      * right. split; [constructor; auto|]. cbn [length]. rewrite (alone_S _ _ _ _ _ _ H A). cbn [left_by settle at_ owns].
        etransitivity; [exact HA|]. apply place_place.
Qed.

Lemma visits_nth : forall size k i, nth_error (visits size 0) k = Some i -> i = Z.of_nat k.
Proof.
  intros size k i H. unfold visits in H. simpl in H. rewrite app_nil_r, Nat.sub_0_r in H. rewrite nth_error_map in H.
  destruct (nth_error (seq 0 size) k) as [x|] eqn:E; inversion H; subst. f_equal.
  assert (k < size)%nat by (rewrite <- (seq_length size 0); apply nth_error_Some; congruence).
  apply nth_error_nth with (d := 0%nat) in E. rewrite seq_nth in E by auto. lia.
Qed.
Lemma visits_split : forall size a i b, visits size 0 = a ++ i :: b -> i = Z.of_nat (length a) /\ forall j, 0 <= j < i -> In j a.
Proof.
  intros size a i b H. assert (Hi : i = Z.of_nat (length a)) by (apply (visits_nth size); rewrite H, nth_error_app2, Nat.sub_diag; auto).
  split; auto. intros j Hj. destruct (nth_error a (Z.to_nat j)) as [x|] eqn:E.
  - pose proof (visits_nth size (Z.to_nat j) x) as Hx. rewrite H, nth_error_app1 in Hx by lia. apply Hx in E as E'. rewrite Z2Nat.id in E' by lia. subst x.
    eapply nth_error_In; eauto.
  - apply nth_error_None in E. lia.
Qed.

(** A retrying thread alone, when nothing is available. *)
Lemma alone_spin : forall size t ow k rest c, length (slots c) = size -> (forall i, 0 <= i < Z.of_nat size -> busy c i) ->
  Forall (fun i => 0 <= i < Z.of_nat size) rest ->
  nth_error (threads c) t = Some {| at_ := Scan true rest; owns := ow |} ->
  exists rest', alone size k t c = place c t (slots c) {| at_ := Scan true rest'; owns := ow |}.
Proof.
  intros size t ow. induction k as [|k IH]; intros rest c L B F H.
  - exists rest. simpl. rewrite place_same; auto.
  - destruct rest as [|i rest].
    + erewrite alone_S; [|exact H|reflexivity]. cbn [left_by settle at_ owns].
      destruct (IH (visits size 0) (place c t (slots c) {| at_ := Scan true (visits size 0); owns := ow |})) as [rest' Hr]; auto.
      * apply visits_ok.
      * eapply place_at; eauto.
      * exists rest'. etransitivity; [exact Hr|]. apply place_place.
    + inversion F as [|? ? Hi F']; subst. destruct (idx_some _ _ Hi) as [s Hs]. specialize (B i Hi) as Bi. unfold busy in Bi. rewrite Hs in Bi.
      assert (E : slot_eqb s Available = false) by (destruct s; simpl; congruence).
      erewrite alone_S; [|exact H|cbn [at_ advance]; rewrite (cas_ok _ _ _ _ _ Hs), E; reflexivity]. cbn [left_by settle at_ owns].
      destruct (IH rest (place c t (slots c) {| at_ := Scan true rest; owns := ow |})) as [rest' Hr]; auto.
      * eapply place_at; eauto.
      * exists rest'. etransitivity; [exact Hr|]. apply place_place.
Qed.
