(** Property::matrix walks the cartesian product. *)
From Coq Require Import List ZArith Lia Bool.
From Verif Require Import Base RandomModel BinSearchProof IntegralProof ContextProof TreeProof RunnerModel MatrixSpec RunnerProof RunnerShrinkProof.
Import ListNotations.
Local Open Scope list_scope.
Local Open Scope Z_scope.

Lemma usable_max : forall V (l : list V), usable l -> wrapS 32 (wrapU 64 (Z.of_nat (length l) - 1)) = Z.of_nat (length l) - 1.
Proof. intros V l [H1 H2]. rewrite wrapU_small by (split; [lia|]; eapply Z.le_lt_trans with (2 ^ 31); [lia|reflexivity]). apply wrapS_small; [lia|]. change (32 - 1) with 31. lia. Qed.

(* progress, one list at a time *)
Lemma progressN_tail : forall V N (l : list V) ls i b idx, progressN (S N) (l :: ls) (b, i :: idx) =
  let '(b', idx') := progressN N ls (b, idx) in (b', i :: idx').
Proof.
  intros. unfold progressN. destruct b; auto. simpl. destruct (nth_error ls N); auto. destruct (nth_error idx N); auto. destruct (_ <? _); auto.
Qed.

Lemma progress_cons : forall V (l : list V) ls i idx, progress (l :: ls) (i :: idx) =
  let '(b, idx') := progress ls idx in
  if b then (true, i :: idx')
  else if i <? wrapS 32 (wrapU 64 (Z.of_nat (length l) - 1)) then (true, (i + 1) :: idx') else (false, 0 :: idx').
Proof.
  intros V l ls i idx. unfold progress. change (length (l :: ls)) with (S (length ls)). rewrite seq_S, fold_left_app.
  assert (H : forall k st b0, (forall x, In x k -> (x < length ls)%nat) ->
    fold_left (fun st k => progressN (S (length ls) - k - 1) (l :: ls) st) k (b0, i :: st) =
    let '(b, idx') := fold_left (fun st k => progressN (length ls - k - 1) ls st) k (b0, st) in (b, i :: idx')).
  { induction k as [|x k IH]; intros st b0 Hk; auto. cbn [fold_left].
    replace (S (length ls) - x - 1)%nat with (S (length ls - x - 1)) by (specialize (Hk x (or_introl eq_refl)); lia).
    rewrite progressN_tail. destruct (progressN (length ls - x - 1) ls (b0, st)) as [b1 st1]. apply IH. intros y Hy. apply Hk. right. auto. }
  rewrite H by (intros x Hx; apply in_seq in Hx; lia).
  destruct (fold_left _ (seq 0 (length ls)) (false, idx)) as [b idx']. cbn [fold_left seq].
  replace (S (length ls) - (0 + length ls) - 1)%nat with 0%nat by lia. destruct b; reflexivity.
Qed.

(* valid indices, and the combinations from them on *)
Inductive valid {V} : list (list V) -> list Z -> Prop :=
| valid_nil : valid [] []
| valid_cons : forall l ls i idx, usable l -> 0 <= i < Z.of_nat (length l) -> valid ls idx -> valid (l :: ls) (i :: idx).

Fixpoint from {V} (lists : list (list V)) (idx : list Z) : list (list V) :=
  match lists, idx with
  | l :: ls, i :: idx' =>
      match skipn (Z.to_nat i) l with
      | x :: rest => map (cons x) (from ls idx') ++ flat_map (fun y => map (cons y) (product ls)) rest
      | [] => []
      end
  | _, _ => [[]]
  end.

Lemma skipn_nth : forall A (l : list A) n x, nth_error l n = Some x -> skipn n l = x :: skipn (S n) l.
Proof. induction l as [|a l IH]; intros [|n] x H; simpl in *; try discriminate; [congruence|]. apply IH. auto. Qed.

Lemma valid_zeros : forall V (lists : list (list V)), Forall usable lists -> valid lists (map (fun _ => 0) lists).
Proof. induction 1 as [|l ls H Hs IH]; simpl; constructor; auto. destruct H. lia. Qed.

Lemma valid_usable : forall V (lists : list (list V)) idx, valid lists idx -> Forall usable lists.
Proof. induction 1; constructor; auto. Qed.

Lemma from_zeros : forall V (lists : list (list V)), Forall usable lists -> from lists (map (fun _ => 0) lists) = product lists.
Proof. intros V lists Hf. induction Hf as [|l ls H Hs IH]; auto. cbn [map from product]. rewrite IH. destruct l as [|x l]; auto. Qed.

Lemma from_step : forall V (lists : list (list V)) is, valid lists is ->
  exists args, pickEach lists is = Ok args /\
  match progress lists is with
  | (true, idx') => valid lists idx' /\ from lists is = args :: from lists idx'
  | (false, idx') => idx' = map (fun _ => 0) lists /\ from lists is = [args]
  end.
Proof.
  intros V lists is Hv. induction Hv as [|l ls i is Hu Hi Hv IH]; [exists []; split; [reflexivity|]; split; reflexivity|].
  destruct IH as [args [Hp IH]]. destruct (nth_error l (Z.to_nat i)) as [x|] eqn:En; [|apply nth_error_None in En; lia].
  exists (x :: args). assert (Hi0 : (i <? 0) = false) by (apply Z.ltb_ge; lia).
  split; [simpl; unfold idx; rewrite Hi0, En; cbn [bind]; rewrite Hp; auto|].
  rewrite progress_cons. cbn [from]. rewrite (skipn_nth _ _ _ _ En). destruct (progress ls is) as [b idx'] eqn:Ep. destruct b.
  - destruct IH as [Hv' Hf]. split; [constructor; auto|]. rewrite (skipn_nth _ _ _ _ En), Hf. auto.
  - destruct IH as [-> Hf]. rewrite Hf, usable_max by auto. destruct (i <? Z.of_nat (length l) - 1) eqn:Ei.
    + apply Z.ltb_lt in Ei. split; [constructor; [auto|lia|apply valid_zeros; eapply valid_usable; eauto]|].
      replace (Z.to_nat (i + 1)) with (S (Z.to_nat i)) by lia. rewrite from_zeros by (eapply valid_usable; eauto).
      destruct (skipn (S (Z.to_nat i)) l) as [|y rest] eqn:Es; [exfalso|reflexivity].
      assert (Hl : length (skipn (S (Z.to_nat i)) l) = 0%nat) by (rewrite Es; auto). rewrite skipn_length in Hl. lia.
    + apply Z.ltb_ge in Ei. split; auto. rewrite skipn_all2 by lia. auto.
Qed.

Lemma matrixLoop_each : forall E V W (P : property E V W) lists fuel idx s, valid lists idx -> (length (from lists idx) <= fuel)%nat ->
  matrixLoop fuel P lists idx s = each P (from lists idx) s.
Proof.
  intros E V W P lists. induction fuel as [|fuel IH]; intros idx s Hv Hf; destruct (from_step _ _ _ Hv) as [args [Hp H]]; destruct (progress lists idx) as [b idx'] eqn:Eg.
  - exfalso. destruct b; destruct H as [_ H]; rewrite H in Hf; simpl in Hf; lia.
  - cbn [matrixLoop]. rewrite Hp. cbn [bind]. rewrite Eg. destruct b.
    + destruct H as [Hv' Hfrom]. rewrite Hfrom. cbn [each]. destruct (example P args s) as [[bb s1]| | |]; auto. cbn [bind]. apply IH; auto. rewrite Hfrom in Hf. simpl in Hf. lia.
    + destruct H as [_ Hfrom]. rewrite Hfrom. cbn [each]. destruct (example P args s) as [[bb s1]| | |]; auto.
Qed.

Lemma matrix_each : forall E V W (P : property E V W) lists fuel s, Forall usable lists -> (length (product lists) <= fuel)%nat ->
  matrix fuel P lists s = do s' <- each P (product lists) s; Ok (true, s').
Proof. intros. unfold matrix. rewrite matrixLoop_each; rewrite ?from_zeros; auto. apply valid_zeros; auto. Qed.

Lemma pickEach_empty : forall V (lists : list (list V)), In [] lists -> pickEach lists (map (fun _ => 0) lists) = UB.
Proof.
  induction lists as [|l ls IH]; intros H; [destruct H|]. simpl. unfold idx. simpl. destruct l as [|x l]; simpl; auto.
  destruct H as [H|H]; [discriminate|]. rewrite IH; auto.
Qed.

Lemma product_in : forall V (lists : list (list V)) args, In args (product lists) <-> Forall2 (@In V) args lists.
Proof.
  induction lists as [|l ls IH]; intros args; simpl.
  - split; [intros [<-|[]]; auto|inversion 1; auto].
  - rewrite in_flat_map. split.
    + intros [x [H1 H2]]. apply in_map_iff in H2. destruct H2 as [t [<- H2]]. constructor; auto. apply IH. auto.
    + inversion 1; subst. eexists. split; eauto. apply in_map. apply IH. auto.
Qed.

Lemma product_length : forall V (lists : list (list V)), length (product lists) = fold_right Nat.mul 1%nat (map (@length V) lists).
Proof.
  induction lists as [|l ls IH]; simpl; auto. rewrite <- IH. induction l as [|x l IHl]; simpl; auto. rewrite app_length, map_length, IHl. auto.
Qed.
