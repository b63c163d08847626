(** Property C50: the slot bitmap. *)
From Coq Require Import List ZArith Lia Bool Arith.
From Verif Require Import Base TupleModel BitmapModel BitmapSpec BitmapProof BitmapAloneProof BitmapRunProof.
Import ListNotations.
Local Open Scope Z_scope.

(** No index is in two hands: at most one thread holds it, once, and then no thread is acquiring or freeing it; at most one thread is acquiring or freeing it. *)
Theorem C50_mutual_exclusion : forall size ls c, exec size true (start size) ls c ->
  NoDup (all_held c) /\
  (forall t u n, holds c t n -> holds c u n -> t = u) /\
  (forall t u n, handling c t n -> handling c u n -> t = u) /\
  (forall t u n, holds c t n -> handling c u n -> False).
Proof.
  intros size ls c H. apply inv_reach in H. split; [eapply inv_nodup; eauto|]. split; [|split].
  - intros t u n [th [Ht H1]] [uh [Hu H2]]. apply (inv_one size c t u th uh n H Ht Hu); unfold claims; apply in_or_app; auto.
  - intros t u n [th [Ht H1]] [uh [Hu H2]]. apply handling_claim in H1. apply handling_claim in H2. apply (inv_one size c t u th uh n H Ht Hu); unfold claims; apply in_or_app; auto.
  - intros t u n [th [Ht H1]] [uh [Hu H2]]. apply handling_claim in H2.
    assert (t = u) by (apply (inv_one size c t u th uh n H Ht Hu); unfold claims; apply in_or_app; auto). subst u. rewrite Ht in Hu. inversion Hu; subst. eapply inv_owns_pc; eauto.
Qed.

(** Held indices are in range; the checks of take and put never throw, no access is outside the array. *)
Theorem C50_no_failure : forall size ls c, exec size true (start size) ls c ->
  sound c /\ length (slots c) = size /\ forall t n, holds c t n -> 0 <= n < Z.of_nat size.
Proof.
  intros size ls c H. apply inv_reach in H. split; [|split].
  - intros t th Ht. destruct (i_ok _ _ H _ _ Ht) as [_ O]. destruct (at_ th); simpl in O; split; try discriminate; tauto.
  - apply (i_len _ _ H).
  - intros t n [th [Ht Hn]]. destruct (i_ok _ _ H _ _ Ht) as [O _]. specialize (O _ Hn). apply idx_range in O. rewrite (i_len _ _ H) in O. auto.
Qed.

(** The states of the slots say exactly which ones are in use. *)
Theorem C50_states : forall size ls c n, exec size true (start size) ls c -> 0 <= n < Z.of_nat size ->
  (idx (slots c) n = Ok Available <-> ~ in_use c n) /\
  (idx (slots c) n = Ok Unavailable <-> exists t, holds c t n \/ exists th, nth_error (threads c) t = Some th /\ at_ th = Release n).
Proof.
  intros size ls c n H R. apply inv_reach in H. pose proof (inv_busy _ _ _ H R) as B. split.
  - split; [intros E U; apply B in U; auto|]. intros U. rewrite <- (i_len _ _ H) in R. destruct (idx_some _ _ R) as [s Hs]. rewrite Hs.
    destruct s; auto; exfalso; apply U, B; rewrite Hs; discriminate.
  - split.
    + intros E. assert (Hu : in_use c n) by (apply B; rewrite E; discriminate). destruct Hu as [t [Hu|[th [Ht Hu]]]]; exists t; auto. right. exists th. split; auto.
      destruct (i_ok _ _ H _ _ Ht) as [_ O]. destruct Hu as [Hu|[Hu|[Hu|[Hu|Hu]]]]; auto; rewrite Hu in O; simpl in O; congruence.
    + intros [t [[th [Ht Hn]]|[th [Ht E]]]]; destruct (i_ok _ _ H _ _ Ht) as [O1 O2]; auto. rewrite E in O2. auto.
Qed.

(** An index that was handed out stays with the thread until that thread gives it back or hands it over. *)
Theorem C50_kept : forall size polite c l d t n, step size polite c l d -> holds c t n ->
  holds d t n \/ l = LCall t (Unacquire n) \/ exists u, l = LGive t u n.
Proof.
  intros size polite c l d t n H [th [Ht Hn]]. destruct H as [c|c u uh k Hu Hi Hp|c u uh o Hu Ho|c u v uh vh m N Hu Hv Hm]; unfold holds; simpl.
  - left. exists th. split; auto. rewrite nth_error_app1; auto. apply nth_error_Some. congruence.
  - destruct (Nat.eq_dec u t) as [->|Hne].
    + rewrite Ht in Hu. inversion Hu; subst uh. destruct k as [| |m]; simpl.
      * left. eexists. split; [eapply setnth_at; eauto|]. auto.
      * left. eexists. split; [eapply setnth_at; eauto|]. auto.
      * destruct (Z.eq_dec n m) as [->|]; auto. left. eexists. split; [eapply setnth_at; eauto|]. simpl. apply without_other; auto.
    + left. exists th. rewrite setnth_other by auto. auto.
  - left. destruct (Nat.eq_dec u t) as [->|Hne].
    + rewrite Ht in Hu. inversion Hu; subst uh. eexists. split; [eapply setnth_at; eauto|]. destruct o as [p m|[v|] m]; simpl; auto. destruct (v =? -1); simpl; auto.
    + exists th. rewrite setnth_other by auto. auto.
  - destruct (Nat.eq_dec v t) as [->|Hne].
    + left. rewrite Ht in Hv. inversion Hv; subst vh. eexists. split; [eapply setnth_at; rewrite setnth_other; eauto|]. simpl. auto.
    + rewrite setnth_other by auto. destruct (Nat.eq_dec u t) as [->|Hne2].
      * rewrite Ht in Hu. inversion Hu; subst uh. destruct (Z.eq_dec n m) as [->|]; [eauto|]. left. eexists. split; [eapply setnth_at; eauto|]. simpl. apply without_other; auto.
      * left. exists th. rewrite setnth_other by auto. auto.
Qed.

(** What a call returns.  acquire returns an index nobody had; tryAcquire does that or returns -1; unacquire returns nothing and the slot is available. *)
Theorem C50_returned : forall size pre t k mid v c, exec size true (start size) (pre ++ [LCall t k] ++ mid ++ [LRet t v]) c ->
  Forall (fun l => ~ call_by t l) mid ->
  exists d, exec size true (start size) (pre ++ [LCall t k] ++ mid) d /\
  match k with
  | Unacquire n => v = None /\ idx (slots c) n = Ok Available
  | _ => (k = TryAcquire /\ v = Some (-1)) \/
         exists n, v = Some n /\ 0 <= n < Z.of_nat size /\ holds c t n /\ (forall u, ~ holds d u n) /\ forall u, holds c u n -> u = t
  end.
Proof.
  intros size pre t k mid v c H F. replace (pre ++ [LCall t k] ++ mid ++ [LRet t v]) with ((pre ++ [LCall t k] ++ mid) ++ [LRet t v]) in H by (rewrite <- !app_assoc; auto).
  pose proof H as Hall. apply exec_snoc_inv in H. destruct H as [d [Hd Hs]]. exists d. split; auto.
  pose proof Hd as Hd'. apply exec_split in Hd'. destruct Hd' as [c0 [H0 H1]]. apply exec_split in H1. destruct H1 as [c1 [H1 H2]]. apply exec_one in H1.
  destruct (step_ret _ _ _ _ _ _ Hs) as [th [m [Ht [A ->]]]].
  destruct (during_exec _ _ _ _ _ _ _ H1 _ H2 F) as [th' [Ht' D]]. rewrite Ht in Ht'. inversion Ht'; subst th'. clear Ht'.
  destruct D as [D|[D|[D|D]]]; try (rewrite D in A; discriminate).
  pose proof (during_advance _ _ _ _ _ _ _ D A) as Q. pose proof (inv_reach _ _ _ Hd) as I.
  assert (Hn : forall n, v = Some n -> at_ th = TakeStore n -> 0 <= n < Z.of_nat size /\ holds {| slots := m; threads := set_nth t (settle th (Return v m)) (threads d) |} t n /\
     (forall u, ~ holds d u n) /\ forall u, holds {| slots := m; threads := set_nth t (settle th (Return v m)) (threads d) |} u n -> u = t).
  { intros n -> E. destruct (i_ok _ _ I _ _ Ht) as [_ O]. rewrite E in O. simpl in O. pose proof (idx_range _ _ _ O) as R. rewrite (i_len _ _ I) in R. split; auto.
    assert (Hh : forall u, ~ holds d u n).
    { intros u Hu. destruct (C50_mutual_exclusion _ _ _ Hd) as [_ [_ [_ X]]]. apply (X u t n Hu). exists th. auto. }
    split; [|split; auto].
    - eexists. split; [simpl; eapply setnth_at; eauto|]. simpl. destruct (Z.eqb_spec n (-1)); [lia|]. simpl. auto.
    - intros u [uh [Hu Hin]]. simpl in Hu. apply setnth_inv in Hu. destruct Hu as [[-> _]|[N Hu]]; auto. exfalso. apply (Hh u). exists uh. auto. }
  destruct k as [| |n].
  - destruct Q as [n [-> E]]. right. exists n. split; auto.
  - destruct Q as [[-> _]|[n [-> E]]]; auto. right. exists n. split; auto.
  - split; auto. subst v. destruct D as [D|[D|D]].
    + rewrite D in A. simpl in A. destruct (cas (slots d) n Unavailable Changing) as [[? ?]| | |]; discriminate.
    + rewrite D in A. simpl in A. destruct (idx (slots d) n) as [[]| | |]; discriminate.
    + destruct (i_ok _ _ I _ _ Ht) as [_ O]. rewrite D in *. simpl in *. inversion A; subst. rewrite (idx_put _ _ _ _ _ O), Z.eqb_refl. auto.
Qed.

(** tryAcquire gives up only after trying every slot, each at a moment when it was in somebody's hands. *)
Theorem C50_try_gives_up : forall size pre t mid c, exec size true (start size) (pre ++ [LCall t TryAcquire] ++ mid ++ [LRet t (Some (-1))]) c ->
  Forall (fun l => ~ call_by t l) mid ->
  forall n, 0 <= n < Z.of_nat size -> exists m1 m2 d, mid = m1 ++ LTry t n false :: m2 /\
    exec size true (start size) (pre ++ [LCall t TryAcquire] ++ m1) d /\ in_use d n.
Proof.
  intros size pre t mid c H F n R. replace (pre ++ [LCall t TryAcquire] ++ mid ++ [LRet t (Some (-1))]) with ((pre ++ [LCall t TryAcquire] ++ mid) ++ [LRet t (Some (-1))]) in H by (rewrite <- !app_assoc; auto).
  apply exec_snoc_inv in H. destruct H as [d [Hd Hs]].
  pose proof Hd as Hd'. apply exec_split in Hd'. destruct Hd' as [c0 [H0 H1]]. apply exec_split in H1. destruct H1 as [c1 [H1 H2]]. apply exec_one in H1.
  destruct (step_ret _ _ _ _ _ _ Hs) as [th [m [Ht [A _]]]].
  destruct (during_exec _ _ _ _ _ _ _ H1 _ H2 F) as [th' [Ht' D]]. rewrite Ht in Ht'. inversion Ht'; subst th'. clear Ht'.
  destruct D as [D|[D|[D|D]]]; try (rewrite D in A; discriminate).
  pose proof (during_advance _ _ _ _ _ _ _ D A) as Q. destruct Q as [[_ Q]|[k [E Q]]].
  - destruct (Q n) as [m1 [m2 ->]]; [apply visits_in; auto|]. exists m1, m2.
    replace (pre ++ [LCall t TryAcquire] ++ m1 ++ LTry t n false :: m2) with ((pre ++ [LCall t TryAcquire] ++ m1) ++ [LTry t n false] ++ m2) in Hd by (rewrite <- !app_assoc; auto).
    apply exec_split in Hd. destruct Hd as [e [He1 He2]]. exists e. split; auto. split; auto. apply exec_split in He2. destruct He2 as [e1 [He2 _]]. apply exec_one in He2.
    destruct (step_try _ _ _ _ _ _ _ He2) as [_ [_ [_ [_ [_ X]]]]]. apply (inv_busy size); auto. eapply inv_reach; eauto.
  - exfalso. inversion E; subst k. destruct (i_ok _ _ (inv_reach _ _ _ Hd) _ _ Ht) as [_ O]. rewrite Q in O. simpl in O. apply idx_range in O. lia.
Qed.

(** tryAcquire and unacquire end after a bounded number of accesses of their own, whatever the other threads do. *)
Theorem C50_wait_free : forall size polite pre t k mid c, exec size polite (start size) (pre ++ [LCall t k] ++ mid) c ->
  Forall (fun l => ~ call_by t l) mid ->
  match k with
  | Acquire => True
  | TryAcquire => (length (filter (access_ofb t) mid) <= size + 2)%nat
  | Unacquire _ => (length (filter (access_ofb t) mid) <= 3)%nat
  end.
Proof.
  intros size polite pre t k mid c H F. apply exec_split in H. destruct H as [c0 [_ H]]. apply exec_split in H. destruct H as [c1 [H1 H2]]. apply exec_one in H1.
  destruct k as [| |n]; auto.
  - destruct (bound_exec _ _ _ _ _ _ _ H1 ltac:(discriminate) _ H2 F) as [th [_ B]]. simpl in B. rewrite visits_len in B. lia.
  - destruct (bound_exec _ _ _ _ _ _ _ H1 ltac:(discriminate) _ H2 F) as [th [_ B]]. simpl in B. lia.
Qed.

(** The smallest available index, if any. *)
Definition least_available (m : list slot) (i : Z) : Prop := idx m i = Ok Available /\ forall j, 0 <= j < i -> idx m j <> Ok Available.
Definition none_available (size : nat) (m : list slot) : Prop := forall j, 0 <= j < Z.of_nat size -> idx m j <> Ok Available.

(** Not disturbed, tryAcquire takes the smallest available index; it returns -1, changing nothing, only if there is none. *)
Theorem C50_try_alone : forall size ls c t d, exec size true (start size) ls c -> step size true c (LCall t TryAcquire) d ->
  exists th k, nth_error (threads c) t = Some th /\
  ((exists i, least_available (slots c) i /\
      alone size k t d = {| slots := put_slot (slots c) i Unavailable; threads := set_nth t {| at_ := Idle; owns := i :: owns th |} (threads c) |}) \/
   (none_available size (slots c) /\ alone size k t d = c)).
Proof.
  intros size ls c t d H Hs. apply inv_reach in H. apply step_call in Hs. destruct Hs as [th [Ht [Hi [_ ->]]]]. exists th. simpl entry. simpl gives_back.
  set (d := {| slots := slots c; threads := set_nth t {| at_ := Scan false (visits size 0); owns := owns th |} (threads c) |}).
  assert (Hd : nth_error (threads d) t = Some {| at_ := Scan false (visits size 0); owns := owns th |}) by (simpl; eapply setnth_at; eauto).
  destruct (alone_scan size t (owns th) false (visits size 0) d (i_len _ _ H) (visits_ok size) Hd) as [[a [i [b [Hv [Ha [Hai Hal]]]]]]|[Ha Hal]].
  - exists (length a + 3)%nat. split; auto. left. exists i. destruct (visits_split _ _ _ _ Hv) as [-> Hlt]. split.
    + split; auto. intros j Hj. rewrite Forall_forall in Ha. apply (Ha j). auto.
    + rewrite Hal. unfold d, place. simpl. rewrite setnth_twice. auto.
  - exists (length (visits size 0) + 1)%nat. split; auto. right. split.
    + intros j Hj. rewrite Forall_forall in Ha. apply (Ha j), visits_in. auto.
    + rewrite alone_add, Hal. simpl. rewrite (setnth_at _ _ _ _ _ Hd). simpl. rewrite !setnth_twice.
      destruct c as [m l]. simpl in *. f_equal. apply setnth_same. rewrite Ht. f_equal. destruct th; simpl in *; congruence.
Qed.

(** A thread anywhere in acquire, undisturbed, gets an index if there is an available one, and otherwise goes on trying for ever, changing nothing. *)
Theorem C50_acquire_alone : forall size ls c t th rest, exec size true (start size) ls c -> nth_error (threads c) t = Some th -> at_ th = Scan true rest ->
  (none_available size (slots c) /\ forall k, exists rest', alone size k t c = {| slots := slots c; threads := set_nth t {| at_ := Scan true rest'; owns := owns th |} (threads c) |}) \/
  (exists i k, (k <= length rest + size + 4)%nat /\ idx (slots c) i = Ok Available /\
     alone size k t c = {| slots := put_slot (slots c) i Unavailable; threads := set_nth t {| at_ := Idle; owns := i :: owns th |} (threads c) |}).
Proof.
  intros size ls c t th rest H Ht Hp. apply inv_reach in H. destruct (i_ok _ _ H _ _ Ht) as [_ O]. rewrite Hp in O. simpl in O.
  assert (Ht' : nth_error (threads c) t = Some {| at_ := Scan true rest; owns := owns th |}) by (rewrite Ht; f_equal; destruct th; simpl in *; congruence).
  destruct (alone_scan size t (owns th) true rest c (i_len _ _ H) O Ht') as [[a [i [b [Hv [Ha [Hai Hal]]]]]]|[Ha Hal]].
  - right. exists i, (length a + 3)%nat. split; [|split; auto]. subst rest. rewrite app_length. simpl. lia.
  - set (d := place c t (slots c) {| at_ := Scan true (visits size 0); owns := owns th |}).
    assert (Hd : nth_error (threads d) t = Some {| at_ := Scan true (visits size 0); owns := owns th |}) by (simpl; eapply setnth_at; eauto).
    destruct (alone_scan size t (owns th) true (visits size 0) d (i_len _ _ H) (visits_ok size) Hd) as [[a [i [b [Hv [Ha' [Hai Hal']]]]]]|[Ha' Hal']].
    + right. exists i, (length rest + (1 + (length a + 3)))%nat. split.
      { assert (length (visits size 0) = size) by apply visits_len. rewrite Hv, app_length in H0. simpl in H0. lia. }
      split; auto. rewrite alone_add, Hal. change (1 + (length a + 3))%nat with (S (length a + 3)). erewrite alone_S; [|eapply place_at; eauto|reflexivity].
      cbn [left_by settle at_ owns slots place]. rewrite place_place. fold d. rewrite Hal'. unfold d. rewrite place_place. reflexivity.
    + left. assert (Hb : forall j, 0 <= j < Z.of_nat size -> busy c j) by (intros j Hj; rewrite Forall_forall in Ha'; apply (Ha' j), visits_in; auto).
      split; auto. intros k. destruct (alone_spin size t (owns th) k rest c (i_len _ _ H) Hb O Ht') as [rest' Hr]. exists rest'. rewrite Hr. reflexivity.
Qed.

(** Running a thread alone is one of the executions meant above. *)
Theorem C50_alone_is_execution : forall size polite k t c, exists ls, exec size polite c ls (alone size k t c).
Proof. intros. apply alone_exec. Qed.

(** The copy of an unused bitmap is the same. *)
Theorem C50_copy : forall size m, length m = size -> copy size m = Ok m.
Proof.
  intros size m <-. unfold copy. induction m as [|s m IH]; auto. cbn [length seq map mapM]. change (idx (s :: m) (Z.of_nat 0)) with (Ok s). cbn [bind].
  assert (H : forall l, mapM (idx (s :: m)) (map Z.of_nat (map S l)) = mapM (idx m) (map Z.of_nat l)).
  { induction l as [|x l IHl]; auto. cbn [map mapM]. rewrite IHl. f_equal. unfold idx. rewrite !Nat2Z.id. simpl nth_error.
    destruct (Z.ltb_spec (Z.of_nat (S x)) 0); destruct (Z.ltb_spec (Z.of_nat x) 0); try lia. auto. }
  rewrite <- seq_shift, H, IH. reflexivity.
Qed.

(** * Clients that give back what they do not own *)

(** unacquire of a slot that is not taken throws, by any thread. *)
Theorem C50_free_of_free_refuted : forall size, (0 < size)%nat -> exists ls c th, exec size false (start size) ls c /\ nth_error (threads c) 0 = Some th /\ at_ th = Died.
Proof.
  intros [|n] H; [lia|]. exists [LSpawn; LCall 0 (Unacquire 0); LStep 0; LStep 0], {| slots := fresh (S n); threads := [{| at_ := Died; owns := [] |}] |}.
  eexists. split; [apply runs_start; reflexivity|]. split; reflexivity.
Qed.

(** unacquire by a thread that does not own the index frees it under its owner: afterwards two threads hold it. *)
Theorem C50_free_by_other_refuted : forall size, (0 < size)%nat -> exists ls c, exec size false (start size) ls c /\ holds c 0 0 /\ holds c 1 0.
Proof.
  intros [|n] H; [lia|].
  exists [LSpawn; LSpawn; LCall 0 Acquire; LTry 0 0 true; LStep 0; LRet 0 (Some 0); LCall 1 (Unacquire 0); LStep 1; LStep 1; LRet 1 None;
          LCall 1 TryAcquire; LTry 1 0 true; LStep 1; LRet 1 (Some 0)],
    {| slots := Unavailable :: repeat Available n; threads := [{| at_ := Idle; owns := [0] |}; {| at_ := Idle; owns := [0] |}] |}.
  split; [apply runs_start; reflexivity|]. split; eexists; simpl; split; try reflexivity; simpl; auto.
Qed.

(** unacquire of -1 (what tryAcquire returns when it fails) is outside the array. *)
Theorem C50_free_of_minus_one_refuted : forall size, exists ls c th, exec size false (start size) ls c /\ nth_error (threads c) 0 = Some th /\ at_ th = Broken.
Proof.
  intros. exists [LSpawn; LCall 0 (Unacquire (-1)); LStep 0], {| slots := fresh size; threads := [{| at_ := Broken; owns := [] |}] |}.
  eexists. split; [apply runs_start; reflexivity|]. split; reflexivity.
Qed.

(** * Examples: two threads compete for one slot *)
Definition race : list label :=
  [LSpawn; LSpawn; LCall 0 Acquire; LCall 1 TryAcquire; LTry 0 0 true; LTry 1 0 false; LStep 0; LRet 1 (Some (-1)); LRet 0 (Some 0); LCall 1 Acquire; LTry 1 0 false; LStep 1;
   LCall 0 (Unacquire 0); LStep 0; LStep 0; LRet 0 None; LTry 1 0 true; LStep 1; LRet 1 (Some 0)].
(** The hypotheses of C50_returned for the first acquire and of C50_try_gives_up are met inside that execution. *)
Example C50_ex : exec 1 true (start 1) race {| slots := [Unavailable]; threads := [newborn; {| at_ := Idle; owns := [0] |}] |} /\
  race = [LSpawn; LSpawn] ++ [LCall 0 Acquire] ++ [LCall 1 TryAcquire; LTry 0 0 true; LTry 1 0 false; LStep 0; LRet 1 (Some (-1))] ++ [LRet 0 (Some 0)] ++ skipn 9 race /\
  race = [LSpawn; LSpawn; LCall 0 Acquire] ++ [LCall 1 TryAcquire] ++ [LTry 0 0 true; LTry 1 0 false; LStep 0] ++ [LRet 1 (Some (-1))] ++ skipn 8 race /\
  Forall (fun l => ~ call_by 0 l) [LCall 1 TryAcquire; LTry 0 0 true; LTry 1 0 false; LStep 0; LRet 1 (Some (-1))] /\
  Forall (fun l => ~ call_by 1 l) [LTry 0 0 true; LTry 1 0 false; LStep 0].
Proof.
  split; [apply runs_start; reflexivity|]. split; [reflexivity|]. split; [reflexivity|]. split; repeat constructor; simpl; auto.
Qed.
Example C50_ex_alone : exists c, exec 3 true (start 3) [LSpawn; LSpawn; LCall 0 Acquire; LTry 0 0 true; LStep 0; LRet 0 (Some 0); LCall 1 TryAcquire] c /\
  slots c = [Unavailable; Available; Available] /\ slots (alone 3 4 1 c) = [Unavailable; Unavailable; Available] /\
  holds (alone 3 4 1 c) 0 0 /\ holds (alone 3 4 1 c) 1 1.
Proof.
  exists {| slots := [Unavailable; Available; Available]; threads := [{| at_ := Idle; owns := [0] |}; {| at_ := Scan false [0; 1; 2]; owns := [] |}] |}.
  split; [apply runs_start; reflexivity|]. split; [reflexivity|]. split; [reflexivity|].
  split; [exists {| at_ := Idle; owns := [0] |}|exists {| at_ := Idle; owns := [1] |}]; split; try reflexivity; simpl; auto.
Qed.
Example C50_ex_give : exists c, exec 2 true (start 2) ([LSpawn; LSpawn; LCall 0 Acquire; LTry 0 0 true; LStep 0; LRet 0 (Some 0)] ++ [LGive 0 1 0]) c /\ holds c 1 0 /\ ~ holds c 0 0.
Proof.
  exists {| slots := [Unavailable; Available]; threads := [newborn; {| at_ := Idle; owns := [0] |}] |}. split; [|split].
  - apply (ex_snoc _ _ _ _ {| slots := [Unavailable; Available]; threads := [{| at_ := Idle; owns := [0] |}; newborn] |}); [apply runs_start; reflexivity|].
    apply (st_give 2 true {| slots := [Unavailable; Available]; threads := [{| at_ := Idle; owns := [0] |}; newborn] |} 0%nat 1%nat {| at_ := Idle; owns := [0] |} newborn 0); auto. simpl. auto.
  - exists {| at_ := Idle; owns := [0] |}. split; [reflexivity|]. simpl. auto.
  - intros [th [E H]]. simpl in E. inversion E; subst. destruct H.
Qed.

Print Assumptions C50_mutual_exclusion.
Print Assumptions C50_no_failure.
Print Assumptions C50_states.
Print Assumptions C50_kept.
Print Assumptions C50_returned.
Print Assumptions C50_try_gives_up.
Print Assumptions C50_wait_free.
Print Assumptions C50_try_alone.
Print Assumptions C50_acquire_alone.
Print Assumptions C50_alone_is_execution.
Print Assumptions C50_copy.
Print Assumptions C50_free_of_free_refuted.
Print Assumptions C50_free_by_other_refuted.
Print Assumptions C50_free_of_minus_one_refuted.
