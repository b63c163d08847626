(** C46-C49: concurrent runs under every interleaving. *)
From Coq Require Import List ZArith Bool Lia Arith.
From Verif Require Import Base TupleModel ConcModel ConcSpec ConcProof ConcInv ConcCo ConcMore ConcFinish.
Import ListNotations.
Local Open Scope list_scope.

(** * Examples used below: a counter, incremented in one step or (not atomically) in two *)

Definition inc : code Z Z unit := Step (fun o m => (o + 1, m + 1)%Z) (fun _ _ => Ret tt).
Definition inc2 : code Z Z unit := Step (fun o m => (o, m)) (fun o m => Step (fun _ m' => (o + 1, m' + 1)%Z) (fun _ _ => Ret tt)).
Definition aInc : act Z Z := of_action inc.
Definition aInc2 : act Z Z := of_action inc2.
(** Class-based: increment only while the model is below 3. *)
Definition aCond : act Z Z := {| pre := Step (fun o m => (o, m)) (fun _ m => Ret (m <? 3)%Z); body := returning inc |}.
Definition theCheck : option (code Z Z unit) := Some (Ret tt).
(** Everybody in turn, [q] times. *)
Definition turns (n q : nat) : list actor := concat (repeat (Coord :: map Rear (seq 0 n)) q).
(** First thread 0, then thread 1. *)
Definition one_by_one : list actor := repeat Coord 12 ++ [Rear 0; Rear 1] ++ repeat Coord 12 ++ repeat (Rear 0) 30 ++ repeat (Rear 1) 30 ++ repeat Coord 12.

Definition exRears : list (list (act Z Z)) := [[aInc2; aInc]; [aInc2]].
Definition exRun : list (ev Z Z) * cfg Z Z := run Func [aInc; aInc] theCheck (turns 2 60) (start 0%Z 0%Z exRears).
Definition exRun2 : list (ev Z Z) * cfg Z Z := run Func [aInc; aInc] theCheck one_by_one (start 0%Z 0%Z exRears).
Definition exClass : list (ev Z Z) * cfg Z Z := run Class [aCond] theCheck (turns 2 60) (start 0%Z 0%Z [[aCond; aCond]; [aCond; aCond]]).

Example exRun_outcome : outcome Func [aInc; aInc] exRears theCheck 0%Z 0%Z (fst exRun) (snd exRun).
Proof. exists (turns 2 60). unfold exRun. destruct (run _ _ _ _ _); auto. Qed.
Example exRun_returned : returned (snd exRun).
Proof. split; vm_compute; reflexivity. Qed.
(** One increment is lost: both threads read 2 before either wrote. *)
Example exRun_object : In (VCheck 4%Z 2%Z) (fst exRun).
Proof. vm_compute. tauto. Qed.
Example exRun2_outcome : outcome Func [aInc; aInc] exRears theCheck 0%Z 0%Z (fst exRun2) (snd exRun2) /\ returned (snd exRun2) /\ In (VCheck 5%Z 2%Z) (fst exRun2).
Proof. split; [exists one_by_one; unfold exRun2; destruct (run _ _ _ _ _); auto|]. split; [split; vm_compute; reflexivity|vm_compute; tauto]. Qed.
Example exClass_outcome : outcome Class [aCond] [[aCond; aCond]; [aCond; aCond]] theCheck 0%Z 0%Z (fst exClass) (snd exClass) /\ returned (snd exClass).
Proof. split; [exists (turns 2 60); unfold exClass; destruct (run _ _ _ _ _); auto|split; vm_compute; reflexivity]. Qed.

(** * C46: the log *)

(** No two log entries are the same one, and each is written at most once. *)
Theorem C46_own_slot : forall O M a front rears check (obj : O) (model : M) tr c, outcome a front rears check obj model tr c ->
  NoDup (map t_slot (takes tr)) /\ NoDup (writes tr) /\ incl (writes tr) (map t_slot (takes tr)).
Proof.
  intros O M a front rears check obj model tr c H. destruct (outcome_inv _ _ _ _ _ _ _ _ H) as (F & T & X & I & ->).
  rewrite (inv_takes _ _ _ _ _ _ _ _ I), (inv_writes _ _ _ _ _ _ _ _ I). split; [|split].
  - rewrite (proj1 (slots_range _ _ _ _ _ _ _ _ I)). apply seq_NoDup.
  - eapply writes_nodup; eauto.
  - intros s Hs. unfold writes in Hs. apply in_flat_map in Hs. destruct Hs as (e & He & Hs). destruct e as [[i|] x| |]; cbn in Hs; try tauto.
    destruct x; cbn in Hs; try tauto. destruct Hs as [->|[]]. apply in_of in He. assert (Hi := in_rear rears _ _ _ (i_T _ _ _ _ _ _ _ _ I) He).
    destruct (acts_some rears c i (i_acts _ _ _ _ _ _ _ _ I) Hi) as (t & Ht). destruct (proj1 (thread_wt _ _ _ _ _ s (i_thr _ _ _ _ _ _ _ _ I _ _ Ht)) He) as (k & l & Hk).
    apply in_of, in_takes in Hk. apply (in_map t_slot) in Hk. auto.
Qed.
Example C46_own_slot_ex : map t_slot (takes (fst exRun)) = [2; 3; 4; 5; 6; 7] /\ writes (fst exRun) = [2; 3; 4; 5; 6; 7].
Proof. split; vm_compute; reflexivity. Qed.

(** Function-based: the entries taken lie in the log, which has room for all, and nothing undefined happens. *)
Theorem C46_in_log : forall O M front rears check (obj : O) (model : M) tr c, outcome Func front rears check obj model tr c ->
  c_status c <> Undefined /\ (forall x, In x (takes tr) -> length front <= t_slot x < length (c_log c)) /\
  (takes tr <> [] -> length (c_log c) = length front + total Func rears).
Proof.
  intros O M front rears check obj model tr c H. destruct (outcome_inv _ _ _ _ _ _ _ _ H) as (F & T & X & I & ->). rewrite (inv_takes _ _ _ _ _ _ _ _ I).
  split; [apply (i_def _ _ _ _ _ _ _ _ I); auto|].
  assert (L : takes T <> [] -> length (c_log c) = length front + total Func rears).
  { intros N. destruct (inv_shared _ _ _ _ _ _ _ _ I) as [->|S]; [destruct (N eq_refl)|]. apply (s_len _ _ _ _ _ S). }
  split; [|auto]. intros x Hx. rewrite L by (intros E; rewrite E in Hx; destruct Hx). destruct (slots_range _ _ _ _ _ _ _ _ I) as [E B].
  apply (in_map t_slot) in Hx. rewrite E in Hx. apply in_seq in Hx. cbn [base] in Hx. lia.
Qed.
Example C46_in_log_ex : takes (fst exRun) <> [] /\ length (c_log (snd exRun)) = 8.
Proof. split; vm_compute; [discriminate|reflexivity]. Qed.

(** Function-based, at the end: every entry was taken and written, and the log tells who took them. *)
Theorem C46_complete : forall O M front rears check (obj : O) (model : M) tr c, outcome Func front rears check obj model tr c -> 1 < length rears -> returned c ->
  map t_slot (takes tr) = seq (length front) (total Func rears) /\ incl (map t_slot (takes tr)) (writes tr) /\
  c_log c = repeat (-1)%Z (length front) ++ map (fun x => Z.of_nat (t_who x)) (takes tr).
Proof.
  intros O M front rears check obj model tr c H Hn Hr. destruct (outcome_inv _ _ _ _ _ _ _ _ H) as (F & T & X & I & ->).
  rewrite (inv_takes _ _ _ _ _ _ _ _ I), (inv_writes _ _ _ _ _ _ _ _ I).
  destruct (inv_returned _ _ _ _ _ _ _ _ I Hr) as (_ & X0 & [(S & _ & He & _)|(_ & Hl & _)] & _); [|lia].
  assert (L := done_all_taken _ _ _ _ _ _ _ _ _ I He).
  assert (E : map t_slot (takes T) = seq (length front) (total Func rears)) by (rewrite (s_slots _ _ _ _ _ S), L; auto).
  destruct (log_done Func front rears T c (i_acts _ _ _ _ _ _ _ _ I) (i_T _ _ _ _ _ _ _ _ I) (i_thr _ _ _ _ _ _ _ _ I) S He) as [B D].
  split; auto. split.
  - intros s Hs. apply in_map_iff in Hs. destruct Hs as ([[[i k] l] s'] & E' & Hin). cbn in E'. unfold t_slot in E'. cbn in E'. subst s'. apply in_takes in Hin.
    assert (Hi : i < length rears) by (assert (A := i_T _ _ _ _ _ _ _ _ I); rewrite Forall_forall in A; apply (A _ Hin)). apply in_of in Hin.
    destruct (acts_some rears c i (i_acts _ _ _ _ _ _ _ _ I) Hi) as (t & Ht).
    destruct (proj2 (thread_wt _ _ _ _ _ s (i_thr _ _ _ _ _ _ _ _ I _ _ Ht))) as [Hw|(k' & l' & E')]; eauto.
    + apply in_of in Hw. unfold writes. apply in_flat_map. eexists. split; eauto. cbn; auto.
    + rewrite (He _ _ Ht) in E'. discriminate.
  - cbn [base threadId] in D. rewrite <- D. rewrite firstn_all2; auto. rewrite (s_counter _ _ _ _ _ S), (s_len _ _ _ _ _ S), L. cbn. lia.
Qed.
Example C46_complete_ex : c_log (snd exRun) = [-1; -1; 0; 1; 0; 1; 0; 0]%Z.
Proof. vm_compute. reflexivity. Qed.

(** Class-based: with at most 5000 rear actions nothing undefined happens. *)
Theorem C46_class : forall O M front rears check (obj : O) (model : M) tr c, outcome Class front rears check obj model tr c -> total Class rears <= 5000 ->
  c_status c <> Undefined /\ forall x, In x (takes tr) -> t_slot x < 5000.
Proof.
  intros O M front rears check obj model tr c H Hn. destruct (outcome_inv _ _ _ _ _ _ _ _ H) as (F & T & X & I & ->). rewrite (inv_takes _ _ _ _ _ _ _ _ I).
  split; [apply (i_def _ _ _ _ _ _ _ _ I); auto|]. intros x Hx. destruct (slots_range _ _ _ _ _ _ _ _ I) as [E B].
  apply (in_map t_slot) in Hx. rewrite E in Hx. apply in_seq in Hx. unfold base in Hx. lia.
Qed.
Example C46_class_ex : total Class [[aCond; aCond]; [aCond; aCond]] <= 5000 /\ map t_slot (takes (fst exClass)) = [0; 1].
Proof. split; [cbn; lia|vm_compute; reflexivity]. Qed.
(** A class-based run in which more than 5000 rear actions ran does not return: it writes past the end of the log. *)
Theorem C46_class_limit : forall O M front rears check (obj : O) (model : M) tr c, outcome Class front rears check obj model tr c -> returned c -> length (takes tr) <= 5000.
Proof.
  intros O M front rears check obj model tr c H Hr. destruct (outcome_inv _ _ _ _ _ _ _ _ H) as (F & T & X & I & ->). rewrite (inv_takes _ _ _ _ _ _ _ _ I).
  destruct (inv_returned _ _ _ _ _ _ _ _ I Hr) as (_ & X0 & [(S & _ & He & _)|(? & _)] & _); [|discriminate].
  destruct (log_done Class front rears T c (i_acts _ _ _ _ _ _ _ _ I) (i_T _ _ _ _ _ _ _ _ I) (i_thr _ _ _ _ _ _ _ _ I) S He) as [B _].
  rewrite (s_counter _ _ _ _ _ S), (s_len _ _ _ _ _ S) in B. exact B.
Qed.
Example C46_class_limit_ex : returned (snd exClass) /\ length (takes (fst exClass)) = 2.
Proof. split; [apply exClass_outcome|vm_compute; reflexivity]. Qed.
Definition manyActs : list (list (act Z Z)) := [repeat aInc (Z.to_nat 5001); []].
Definition manyRun : list (ev Z Z) * cfg Z Z :=
  run Class [] None (repeat Coord 12 ++ [Rear 0; Rear 1] ++ repeat Coord 12 ++ repeat (Rear 0) (Z.to_nat 35000)) (start 0%Z 0%Z manyActs).
Theorem C46_class_refuted : exists tr c, outcome Class [] manyActs None 0%Z 0%Z tr c /\ c_status c = Undefined.
Proof.
  exists (fst manyRun), (snd manyRun). split; [eexists; unfold manyRun; apply surjective_pairing|]. vm_compute. reflexivity.
Qed.

(** * C47: who runs what when *)

(** First the front, then the rear threads, then printing and check; the latter only after the whole front. *)
Theorem C47_phases : forall O M a front rears check (obj : O) (model : M) tr c, outcome a front rears check obj model tr c ->
  exists F T X, tr = F ++ T ++ X /\ Forall is_front F /\ Forall (is_rear (length rears)) T /\ (forall w e, ~ In (V w e) X) /\
    (T ++ X <> [] -> fchunks a (length front) (of None tr)).
Proof.
  intros O M a front rears check obj model tr c H. destruct (outcome_inv _ _ _ _ _ _ _ _ H) as (F & T & X & I & ->). exists F, T, X. split; auto.
  split; [apply (i_F _ _ _ _ _ _ _ _ I)|]. split; [apply (i_T _ _ _ _ _ _ _ _ I)|]. split.
  - intros w e Hin. assert (A := inv_tail_shape _ _ _ _ _ _ _ _ I). rewrite Forall_forall in A. apply (A _ Hin).
  - intros N. rewrite (inv_of_none _ _ _ _ _ _ _ _ I). assert (Hco := i_co _ _ _ _ _ _ _ _ I). unfold co_ok in Hco. destruct (c_co c).
    1-5: destruct Hco as [(-> & -> & _) _]; destruct (N eq_refl).
    1-6: apply Hco.
    + destruct Hco as (? & ? & ? & _ & _ & Hf & _). auto.
    + apply Hco.
Qed.
Example C47_phases_ex : of None (fst exRun) = [TStart 0; TStep 0; TEnd 0; TStart 1; TStep 1; TEnd 1].
Proof. vm_compute. reflexivity. Qed.

(** At any time each rear thread has run a first part of its own actions, in order, each once. *)
Theorem C47_threads : forall O M a front rears check (obj : O) (model : M) tr c i acts, outcome a front rears check obj model tr c -> nth_error rears i = Some acts ->
  exists k d p, of (Some i) tr = d ++ p /\ chunks a k d /\ ((p = [] /\ k <= length acts) \/ (k < length acts /\ exists r, chunk a k (p ++ r))).
Proof.
  intros O M a front rears check obj model tr c i acts H Hi. destruct (outcome_inv _ _ _ _ _ _ _ _ H) as (F & T & X & I & ->). rewrite (inv_of _ _ _ _ _ _ _ _ _ I).
  assert (Hlt : i < length rears) by (apply nth_error_Some; congruence). destruct (acts_some rears c i (i_acts _ _ _ _ _ _ _ _ I) Hlt) as (t & Ht).
  destruct (acts_nth rears c i t (i_acts _ _ _ _ _ _ _ _ I) Ht) as [_ E]. apply nth_error_nth with (d := []) in Hi. rewrite Hi in E.
  destruct (i_thr _ _ _ _ _ _ _ _ I _ _ Ht) as (k & d & p & Eo & Hd & Hp). rewrite <- E in Hp. exists k, d, p. split; auto. split; auto.
  inversion Hp; subst; auto; try (left; split; auto; lia); right; split; auto.
  - exists (TWrite s :: TStart k :: repeat (TStep k) 0 ++ [TEnd k; TTake k true 0; TWrite 0]).
    apply (ch_run Func k [TTake k false s; TWrite s] 0 0). constructor.
  - exists [TSkip k]. constructor.
  - exists [TEnd k; TTake k true 0; TWrite 0]. rewrite <- app_assoc. cbn. constructor. auto.
  - exists [TTake k true 0; TWrite 0]. repeat (rewrite <- app_assoc; cbn [app]). constructor. auto.
  - exists [TWrite s]. repeat (rewrite <- app_assoc; cbn [app]). constructor. auto.
Qed.
Example C47_threads_ex : of (Some 1) (fst (run Func [aInc; aInc] theCheck (turns 2 20) (start 0%Z 0%Z exRears))) = [TTake 0 false 3; TWrite 3; TStart 0].
Proof. vm_compute. reflexivity. Qed.

(** When invoke returned, all of them. *)
Theorem C47_all : forall O M a front rears check (obj : O) (model : M) tr c i acts, outcome a front rears check obj model tr c -> returned c -> (a = Func -> 1 < length rears) ->
  nth_error rears i = Some acts -> chunks a (length acts) (of (Some i) tr).
Proof.
  intros O M a front rears check obj model tr c i acts H Hr Hn Hi. destruct (outcome_inv _ _ _ _ _ _ _ _ H) as (F & T & X & I & ->). rewrite (inv_of _ _ _ _ _ _ _ _ _ I).
  destruct (inv_returned _ _ _ _ _ _ _ _ I Hr) as (_ & X0 & [(S & _ & He & _)|(Ea & Hl & _)] & _); [|specialize (Hn Ea); lia]. eapply done_thread; eauto.
Qed.
Example C47_all_ex : of (Some 0) (fst exRun) =
  [TTake 0 false 2; TWrite 2; TStart 0; TStep 0; TStep 0; TEnd 0; TTake 0 true 4; TWrite 4; TTake 1 false 6; TWrite 6; TStart 1; TStep 1; TEnd 1; TTake 1 true 7; TWrite 7].
Proof. vm_compute. reflexivity. Qed.

(** Function-based with fewer than two threads: no rear action runs. *)
Theorem C47_serial : forall O M front rears check (obj : O) (model : M) tr c, outcome Func front rears check obj model tr c -> length rears <= 1 ->
  (forall i, of (Some i) tr = []) /\ (forall l, ~ In (VPrint l) tr).
Proof.
  intros O M front rears check obj model tr c H Hn. destruct (outcome_inv _ _ _ _ _ _ _ _ H) as (F & T & X & I & ->).
  assert (Hno : forall l, ~ In (VPrint l) F) by (intros l Hin; assert (A := i_F _ _ _ _ _ _ _ _ I); rewrite Forall_forall in A; apply (A _ Hin)).
  assert (Hfin : forall X0, finished Func front rears T X0 c -> T = [] /\ X0 = []) by (intros X0 [(_ & Hl & _)|(_ & _ & ? & ? & _)]; [specialize (Hl eq_refl); lia|auto]).
  assert (A : T = [] /\ forall l, ~ In (VPrint l) X).
  { assert (Hco := i_co _ _ _ _ _ _ _ _ I). unfold co_ok, launched in Hco. destruct (c_co c).
    1-5: destruct Hco as [(-> & -> & _) _]; cbn; auto.
    1-5: destruct Hco as [(_ & _ & Hl) _]; specialize (Hl eq_refl); lia.
    - destruct Hco as (Hf & _). destruct (Hfin _ Hf) as [-> ->]. auto.
    - destruct Hco as (X0 & o & m & -> & Hf & _). destruct (Hfin _ Hf) as [-> ->]. split; auto. intros l [E|[]]. discriminate.
    - destruct Hco as (_ & X0 & Hf & Hc). destruct (Hfin _ Hf) as [-> ->]. destruct Hc as [(_ & ->)|(_ & o & m & ->)]; split; auto. intros l [E|[]]. discriminate. }
  destruct A as [-> Hx]. split.
  - intros i. rewrite (inv_of _ _ _ _ _ _ _ _ _ I). auto.
  - intros l Hin. rewrite !in_app_iff in Hin. destruct Hin as [Hin|[[]|Hin]]; [eapply Hno|eapply Hx]; eauto.
Qed.
Example C47_serial_ex : let r := run Func [aInc; aInc] theCheck (turns 1 20) (start 0%Z 0%Z [[aInc2; aInc]]) in returned (snd r) /\ In (VCheck 2%Z 2%Z) (fst r).
Proof. split; [split; vm_compute; reflexivity|vm_compute; tauto]. Qed.

(** The check is the last thing to happen, after all front actions and (unless serial) all rear actions; when invoke returned, it was run exactly if there is one. *)
Theorem C47_check : forall O M a front rears check (obj : O) (model : M) tr c, outcome a front rears check obj model tr c ->
  (forall o m, In (VCheck o m) tr -> (exists tr', tr = tr' ++ [VCheck o m] /\ forall o' m', ~ In (VCheck o' m') tr') /\ fchunks a (length front) (of None tr) /\
     forall i acts, nth_error rears i = Some acts -> (a = Func -> 1 < length rears) -> chunks a (length acts) (of (Some i) tr)) /\
  (returned c -> (check <> None <-> exists o m, In (VCheck o m) tr)).
Proof.
  intros O M a front rears check obj model tr c H. destruct (outcome_inv _ _ _ _ _ _ _ _ H) as (F & T & X & I & ->).
  assert (NF : forall o m, ~ In (VCheck o m) F) by (intros o m Hin; assert (A := i_F _ _ _ _ _ _ _ _ I); rewrite Forall_forall in A; apply (A _ Hin)).
  assert (NT : forall o m, ~ In (VCheck o m) T) by (intros o m Hin; assert (A := i_T _ _ _ _ _ _ _ _ I); rewrite Forall_forall in A; apply (A _ Hin)).
  assert (Nfin : forall X0 o m, finished a front rears T X0 c -> ~ In (VCheck o m) X0).
  { intros X0 o m [(_ & _ & _ & l & -> & _)|(_ & _ & _ & -> & _)]; [intros [E|[]]; discriminate|auto]. }
  assert (Hin : forall o m, In (VCheck o m) (F ++ T ++ X) -> In (VCheck o m) X).
  { intros o m Hin. rewrite !in_app_iff in Hin. destruct Hin as [Hin|[Hin|Hin]]; auto; [destruct (NF _ _ Hin)|destruct (NT _ _ Hin)]. }
  split.
  - intros o m Hc. apply Hin in Hc.
    assert (A : exists X0, X = X0 ++ [VCheck o m] /\ finished a front rears T X0 c /\ fchunks a (length front) (of None F)).
    { assert (Hco := i_co _ _ _ _ _ _ _ _ I). unfold co_ok, launched in Hco. destruct (c_co c).
      1-5: destruct Hco as [(-> & -> & _) _]; destruct Hc.
      1-5: destruct Hco as [(_ & -> & _) _]; destruct Hc.
      - destruct Hco as (Hf & _). destruct (Nfin _ _ _ Hf Hc).
      - destruct Hco as (X0 & o' & m' & -> & Hf & Hfr & _). apply in_app_or in Hc. destruct Hc as [Hc|[E|[]]]; [destruct (Nfin _ _ _ Hf Hc)|]. inversion E; subst. eauto.
      - destruct Hco as (Hfr & X0 & Hf & [(_ & ->)|(_ & o' & m' & ->)]); [destruct (Nfin _ _ _ Hf Hc)|].
        apply in_app_or in Hc. destruct Hc as [Hc|[E|[]]]; [destruct (Nfin _ _ _ Hf Hc)|]. inversion E; subst. eauto. }
    destruct A as (X0 & -> & Hf & Hfr). split; [|split].
    + exists (F ++ T ++ X0). rewrite <- !app_assoc. split; auto. intros o' m' Hn. rewrite !in_app_iff in Hn. destruct Hn as [Hn|[Hn|Hn]]; [eapply NF|eapply NT|eapply Nfin]; eauto.
    + rewrite (inv_of_none _ _ _ _ _ _ _ _ I). auto.
    + intros i acts Hi Hn. rewrite (inv_of _ _ _ _ _ _ _ _ _ I). destruct Hf as [(_ & _ & He & _)|(Ea & Hl & _)]; [eapply done_thread; eauto|specialize (Hn Ea); lia].
  - intros Hr. destruct (inv_returned _ _ _ _ _ _ _ _ I Hr) as (_ & X0 & Hf & Hc). destruct Hc as [(Ec & ->)|(Ec & o & m & ->)].
    + split; [tauto|]. intros (o & m & Hc). apply Hin in Hc. destruct (Nfin _ _ _ Hf Hc).
    + split; auto. intros _. exists o, m. rewrite !in_app_iff. cbn. tauto.
Qed.
Example C47_check_ex : In (VCheck 4%Z 2%Z) (fst exRun) /\ returned (snd exRun) /\ theCheck <> None.
Proof. split; [apply exRun_object|split; [apply exRun_returned|discriminate]]. Qed.

(** An Action without a result (action.hpp) always counts as having returned true, and ends or throws exactly as its function does. *)
Theorem C47_actions : forall O M (c : code O M unit), pre (of_action c) = Ret true /\
  (forall b, comes_to (body (of_action c)) (Ret b) <-> b = true /\ comes_to c (Ret tt)) /\
  (forall e, comes_to (body (of_action c)) (Fail e) <-> comes_to c (Fail e)).
Proof.
  intros O M c. split; auto. unfold of_action. cbn [body]. induction c as [[]|e|u n IH]; cbn [returning].
  - split; [|split; inversion 1]. intros b. split; [inversion 1; split; auto; constructor|intros [-> _]; constructor].
  - split; [|intros e'; split; inversion 1; subst; constructor]. intros b. split; [inversion 1|intros [_ H]; inversion H].
  - split.
    + intros b. split.
      * intros H. inversion H as [|? ? o m ? H1]; subst. apply (proj1 (IH o m)) in H1. destruct H1 as [-> H1]. split; auto. econstructor. eauto.
      * intros [-> H]. inversion H as [|? ? o m ? H1]; subst. apply (ct_step _ _ o m). apply (proj1 (IH o m)). auto.
    + intros e. split; intros H; inversion H as [|? ? o m ? H1]; subst.
      * apply (ct_step _ _ o m). apply (proj2 (IH o m)). auto.
      * apply (ct_step _ _ o m). apply (proj2 (IH o m)). auto.
Qed.
Example C47_actions_ex : comes_to (body aInc) (Ret true) /\ ~ comes_to (body aInc) (Ret false).
Proof.
  split; [apply (proj1 (proj2 (C47_actions _ _ inc)))|intros H; apply (proj1 (proj2 (C47_actions _ _ inc))) in H; destruct H; discriminate].
  split; auto. unfold inc. eapply (ct_step _ _ 0%Z 0%Z). constructor.
Qed.

(** No deadlock: from every state that can occur, some continuation ends (invoke returns, or an exception ends it). *)
Theorem C47_can_finish : forall O M a front rears check (obj : O) (model : M) tr c, outcome a front rears check obj model tr c ->
  exists schedule tr' c', run a front check schedule c = (tr', c') /\ (c_status c' <> Running \/ returned c').
Proof.
  intros O M a front rears check obj model tr c H. destruct (outcome_inv _ _ _ _ _ _ _ _ H) as (F & T & X & I & ->).
  destruct (always_can a front rears check F T X c I) as (s & tr & c' & Hr & Ho). exists s, tr, c'. split; auto.
  destruct (c_status c') eqn:E; try (left; congruence). destruct Ho as [Ho|Ho]; [congruence|]. right. split; auto.
Qed.
Example C47_can_finish_ex : c_status (snd (run Func [aInc; aInc] theCheck (turns 2 20) (start 0%Z 0%Z exRears))) = Running.
Proof. vm_compute. reflexivity. Qed.

(** * C48: models *)

(** Function-based: the model the check gets is the one the front left; if serial, so is the object. *)
Theorem C48_check_model : forall O M front rears check (obj : O) (model : M) tr c o m, outcome Func front rears check obj model tr c -> In (VCheck o m) tr ->
  exists oF, sequentially Func front obj model = Some (oF, m) /\ (length rears <= 1 -> o = oF).
Proof. intros O M front rears check obj model tr c o m H Hin. apply (m_check _ _ _ _ _ _ _ (outcome_minv _ _ _ _ _ _ _ _ H)); auto. Qed.
Example C48_check_model_ex : In (VCheck 4%Z 2%Z) (fst exRun) /\ sequentially Func [aInc; aInc] 0%Z 0%Z = Some (2%Z, 2%Z).
Proof. split; [apply exRun_object|reflexivity]. Qed.

(** Each rear thread starts with that model. *)
Theorem C48_copy : forall O M front rears check (obj : O) (model : M) tr c i t, outcome Func front rears check obj model tr c ->
  nth_error (c_threads c) i = Some t -> t_pc t <> PNone -> (forall k, ~ In (TStep k) (of (Some i) tr)) ->
  exists oF, sequentially Func front obj model = Some (oF, t_model t).
Proof.
  intros O M front rears check obj model tr c i t H Ht Hp Hno. assert (Hm := outcome_minv _ _ _ _ _ _ _ _ H). destruct (outcome_inv _ _ _ _ _ _ _ _ H) as (F & T & X & I & E).
  destruct (in_front (c_co c)) eqn:Ef.
  - exfalso. assert (Hco := i_co _ _ _ _ _ _ _ _ I). unfold co_ok in Hco. destruct (c_co c); try discriminate; destruct Hco as [(_ & _ & _ & Hpc & _) _]; apply Hp; eauto.
  - destruct (m_after _ _ _ _ _ _ _ Hm Ef) as (oF & mF & Hs & _ & _ & P). exists oF. rewrite (P eq_refl i t); auto.
Qed.
Example C48_copy_ex : let c := snd (run Func [aInc; aInc] theCheck (turns 2 20) (start 0%Z 0%Z exRears)) in option_map t_model (nth_error (c_threads c) 1) = Some 2%Z.
Proof. vm_compute. reflexivity. Qed.

(** What a rear thread does changes neither invoke's model nor any other thread (with its model). *)
Theorem C48_private : forall O M front rears check (obj : O) (model : M) tr c i evs c', outcome Func front rears check obj model tr c ->
  move Func front check (Rear i) c = Some (evs, c') ->
  c_model c' = c_model c /\ forall j, j <> i -> nth_error (c_threads c') j = nth_error (c_threads c) j.
Proof.
  intros O M front rears check obj model tr c i evs c' H Hm. destruct (outcome_inv _ _ _ _ _ _ _ _ H) as (F & T & X & I & E).
  unfold move in Hm. destruct (c_status c) eqn:Hs; try discriminate.
  destruct (step_private c c' i evs) as (Em & _ & t & t' & Ht & Et & _); auto.
  - intros t Ht k p. eapply func_no_pre; eauto.
  - split; auto. intros j N. rewrite Et. apply BitmapProof.setnth_other. auto.
Qed.
Example C48_private_ex : let c := snd (run Func [aInc; aInc] theCheck (turns 2 20) (start 0%Z 0%Z exRears)) in move Func [aInc; aInc] theCheck (Rear 0) c <> None.
Proof. vm_compute. discriminate. Qed.

(** Class-based it is not so: there is one model, and the check sees what the rear actions did to it. *)
Theorem C48_class_refuted : exists tr c o m, outcome Class [aCond] [[aCond; aCond]; [aCond; aCond]] theCheck 0%Z 0%Z tr c /\ In (VCheck o m) tr /\
  forall oF, sequentially Class [aCond] 0%Z 0%Z <> Some (oF, m).
Proof.
  exists (fst exClass), (snd exClass), 3%Z, 3%Z. split; [apply exClass_outcome|]. split; [vm_compute; tauto|]. intros oF E. vm_compute in E. discriminate.
Qed.

(** * C49: the printed order *)

(** What is printed: the front actions, then the log entries of the rear threads in the order of taking. *)
Theorem C49_printed : forall O M front rears check (obj : O) (model : M) tr c l, outcome Func front rears check obj model tr c -> In (VPrint l) tr ->
  l = map IFront (seq 0 (length front)) ++ map item_of (takes tr) /\
  forall i acts, nth_error rears i = Some acts -> chunks Func (length acts) (of (Some i) tr).
Proof.
  intros O M front rears check obj model tr c l H Hin. destruct (outcome_inv _ _ _ _ _ _ _ _ H) as (F & T & X & I & ->).
  assert (NF : ~ In (VPrint l) F) by (intros Hi; assert (A := i_F _ _ _ _ _ _ _ _ I); rewrite Forall_forall in A; apply (A _ Hi)).
  assert (NT : ~ In (VPrint l) T) by (intros Hi; assert (A := i_T _ _ _ _ _ _ _ _ I); rewrite Forall_forall in A; apply (A _ Hi)).
  rewrite !in_app_iff in Hin. destruct Hin as [Hin|[Hin|Hin]]; try tauto.
  assert (A : exists X0, In (VPrint l) X0 /\ finished Func front rears T X0 c).
  { assert (Hco := i_co _ _ _ _ _ _ _ _ I). unfold co_ok, launched in Hco. destruct (c_co c).
    1-5: destruct Hco as [(-> & -> & _) _]; destruct Hin.
    1-5: destruct Hco as [(_ & -> & _) _]; destruct Hin.
    - destruct Hco as (Hf & _). eauto.
    - destruct Hco as (X0 & o & m & -> & Hf & _). apply in_app_or in Hin. destruct Hin as [Hin|[E|[]]]; [eauto|discriminate].
    - destruct Hco as (_ & X0 & Hf & [(_ & ->)|(_ & o & m & ->)]); [eauto|]. apply in_app_or in Hin. destruct Hin as [Hin|[E|[]]]; [eauto|discriminate]. }
  destruct A as (X0 & Hx & [(_ & _ & He & l' & -> & Hp)|(_ & _ & _ & -> & _)]); [|destruct Hx]. destruct Hx as [E|[]]. inversion E; subst l'.
  rewrite (inv_takes _ _ _ _ _ _ _ _ I). split; auto. intros i acts Hi. rewrite (inv_of _ _ _ _ _ _ _ _ _ I). eapply done_thread; eauto.
Qed.
Example C49_printed_ex : In (VPrint [IFront 0; IFront 1; IStart 0 0; IStart 1 0; IEnd 0 0; IEnd 1 0; IStart 0 1; IEnd 0 1]) (fst exRun).
Proof. vm_compute. tauto. Qed.

(** For each thread: start and end of its first action, of its second, and so on. *)
Theorem C49_thread_order : forall O M front rears check (obj : O) (model : M) tr c l i acts, outcome Func front rears check obj model tr c -> In (VPrint l) tr -> nth_error rears i = Some acts ->
  filter (item_by i) l = flat_map (fun k => [IStart i k; IEnd i k]) (seq 0 (length acts)).
Proof.
  intros O M front rears check obj model tr c l i acts H Hin Hi. destruct (C49_printed _ _ _ _ _ _ _ _ _ _ H Hin) as [-> Hc]. specialize (Hc i acts Hi).
  rewrite filter_app. assert (E : forall q, filter (item_by i) (map IFront q) = []) by (induction q; auto). rewrite E. cbn [app].
  assert (E2 : forall q : list (nat * nat * bool * nat), filter (item_by i) (map item_of q) = map (fun p : nat * bool => if snd p then IEnd i (fst p) else IStart i (fst p)) (map t_which (filter (who_is i) q))).
  { induction q as [|[[[j k] b] s] q IH]; auto. cbn. unfold who_is, t_who. cbn. destruct b; cbn; destruct (Nat.eqb_spec i j); subst; cbn; rewrite IH; auto. }
  rewrite E2. assert (E3 : map t_which (filter (who_is i) (takes tr)) = alt (length acts)).
  { rewrite <- (chunks_takes_func _ _ Hc), <- takes_of, map_map. auto. }
  rewrite E3. unfold alt. clear. generalize (seq 0 (length acts)). intros q. induction q as [|x q IH]; auto. cbn. f_equal. f_equal. auto.
Qed.
Example C49_thread_order_ex : filter (item_by 0) [IFront 0; IFront 1; IStart 0 0; IStart 1 0; IEnd 0 0; IEnd 1 0; IStart 0 1; IEnd 0 1] = [IStart 0 0; IEnd 0 0; IStart 0 1; IEnd 0 1].
Proof. reflexivity. Qed.

(** If an end is printed before a start, the one action really ended before the other started. *)
Theorem C49_real_time : forall O M front rears check (obj : O) (model : M) tr c l i k j q, outcome Func front rears check obj model tr c -> In (VPrint l) tr ->
  before (IEnd i k) (IStart j q) l -> before (V (Some i) (TEnd k)) (V (Some j) (TStart q)) tr.
Proof.
  intros O M front rears check obj model tr c l i k j q H Hin Hb. destruct (C49_printed _ _ _ _ _ _ _ _ _ _ H Hin) as [-> Hc].
  assert (Hb' : before (IEnd i k) (IStart j q) (map item_of (takes tr))).
  { destruct Hb as (t1 & t2 & t3 & E). apply split_app in E. destruct E as [(q' & _ & E)|(p' & _ & E)]; [|exists p', t2, t3; auto].
    assert (Hin' : In (IEnd i k) (map IFront (seq 0 (length front)))) by (rewrite E; apply in_or_app; right; cbn; auto). apply in_map_iff in Hin'. destruct Hin' as (z & Ez & _). discriminate. }
  apply before_map in Hb'. destruct Hb' as ([[[i' k'] b] s] & [[[j' q'] b'] s'] & E1 & E2 & Hb'). cbn in E1, E2. destruct b; inversion E1; subst. destruct b'; inversion E2; subst.
  assert (Hlt : forall x kk bb ss, In (x, kk, bb, ss) (takes tr) -> exists acts, nth_error rears x = Some acts).
  { intros x kk bb ss Hx. apply in_takes in Hx. destruct (outcome_inv _ _ _ _ _ _ _ _ H) as (F & T & X & I & E). rewrite E, !in_app_iff in Hx.
    assert (Hx' : x < length rears).
    { destruct Hx as [Hx|[Hx|Hx]].
      - assert (A := i_F _ _ _ _ _ _ _ _ I). rewrite Forall_forall in A. destruct (A _ Hx).
      - assert (A := i_T _ _ _ _ _ _ _ _ I). rewrite Forall_forall in A. apply (A _ Hx).
      - assert (A := inv_tail_shape _ _ _ _ _ _ _ _ I). rewrite Forall_forall in A. destruct (A _ Hx). }
    destruct (nth_error rears x) eqn:En; eauto. apply nth_error_None in En. lia. }
  destruct Hb' as (t1 & t2 & t3 & Et).
  destruct (Hlt i k true s) as (ai & Hi); [rewrite Et; apply in_or_app; right; cbn; auto|].
  destruct (Hlt j q false s') as (aj & Hj); [rewrite Et; apply in_or_app; right; cbn; right; apply in_or_app; right; cbn; auto|].
  eapply real_time; [apply (Hc i ai Hi)|apply (Hc j aj Hj)|]. exists t1, t2, t3. eauto.
Qed.
Example C49_real_time_ex : before (IEnd 1 0) (IStart 0 1) [IFront 0; IFront 1; IStart 0 0; IStart 1 0; IEnd 0 0; IEnd 1 0; IStart 0 1; IEnd 0 1].
Proof. exists [IFront 0; IFront 1; IStart 0 0; IStart 1 0; IEnd 0 0], [], [IEnd 0 1]. reflexivity. Qed.

(** Class-based: the numbers of the threads are printed, in the order in which they took entries after their actions. *)
Theorem C49_class : forall O M front rears check (obj : O) (model : M) tr c l, outcome Class front rears check obj model tr c -> In (VPrint l) tr ->
  l = map (fun x => IRaw (Z.of_nat (S (t_who x)))) (takes tr).
Proof.
  intros O M front rears check obj model tr c l H Hin. destruct (outcome_inv _ _ _ _ _ _ _ _ H) as (F & T & X & I & ->).
  assert (NF : ~ In (VPrint l) F) by (intros Hi; assert (A := i_F _ _ _ _ _ _ _ _ I); rewrite Forall_forall in A; apply (A _ Hi)).
  assert (NT : ~ In (VPrint l) T) by (intros Hi; assert (A := i_T _ _ _ _ _ _ _ _ I); rewrite Forall_forall in A; apply (A _ Hi)).
  rewrite !in_app_iff in Hin. destruct Hin as [Hin|[Hin|Hin]]; try tauto.
  assert (A : exists X0, In (VPrint l) X0 /\ finished Class front rears T X0 c).
  { assert (Hco := i_co _ _ _ _ _ _ _ _ I). unfold co_ok, launched in Hco. destruct (c_co c).
    1-5: destruct Hco as [(-> & -> & _) _]; destruct Hin.
    1-5: destruct Hco as [(_ & -> & _) _]; destruct Hin.
    - destruct Hco as (Hf & _). eauto.
    - destruct Hco as (X0 & o & m & -> & Hf & _). apply in_app_or in Hin. destruct Hin as [Hin|[E|[]]]; [eauto|discriminate].
    - destruct Hco as (_ & X0 & Hf & [(_ & ->)|(_ & o & m & ->)]); [eauto|]. apply in_app_or in Hin. destruct Hin as [Hin|[E|[]]]; [eauto|discriminate]. }
  destruct A as (X0 & Hx & [(_ & _ & He & l' & -> & Hp)|(_ & _ & _ & -> & _)]); [|destruct Hx]. destruct Hx as [E|[]]. inversion E; subst l'.
  rewrite (inv_takes _ _ _ _ _ _ _ _ I). auto.
Qed.
Example C49_class_ex : In (VPrint [IRaw 1; IRaw 2]) (fst exClass).
Proof. vm_compute. tauto. Qed.

Print Assumptions C46_own_slot.
Print Assumptions C46_in_log.
Print Assumptions C46_complete.
Print Assumptions C46_class.
Print Assumptions C46_class_limit.
Print Assumptions C46_class_refuted.
Print Assumptions C47_phases.
Print Assumptions C47_threads.
Print Assumptions C47_all.
Print Assumptions C47_serial.
Print Assumptions C47_check.
Print Assumptions C47_actions.
Print Assumptions C47_can_finish.
Print Assumptions C48_check_model.
Print Assumptions C48_copy.
Print Assumptions C48_private.
Print Assumptions C48_class_refuted.
Print Assumptions C49_printed.
Print Assumptions C49_thread_order.
Print Assumptions C49_real_time.
Print Assumptions C49_class.
