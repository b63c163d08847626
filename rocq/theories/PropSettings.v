(** C68: settings of generator objects, copies of them, generators derived from them, references to them. *)
From Coq Require Import List ZArith Bool Lia Arith.
From Verif Require Import Base TreeModel TreeSpec TreeProof TupleModel RandomModel ListModel ContainerModel GenModel IntegralProof
  SettingsModel SettingsSpec SettingsProof SettingsRunProof SettingsFactsProof BitmapProof PropContainer.
Import ListNotations.

Section Settings.
Context {E : engine} {V U : Type} (user : nat -> U -> G E (tree V * U)) (seq : list V -> V) (seq2 : list (V * V) -> V) (lt : V -> V -> bool).
Notation call := (call user seq seq2 lt).
Notation exec := (exec user seq seq2 lt).
Notation run := (run user seq seq2 lt).
Notation observe := (observe user seq seq2 lt).
Notation reachable := (reachable user seq seq2 lt).

Ltac unbind H :=
  match type of H with
  | bind ?X _ = _ => let Q := fresh "Q" in destruct X eqn:Q; try discriminate; cbn [bind] in H
  end.
Ltac unchain H := unbind H; unbind H; match goal with a : (loc * list loc * heap V U)%type |- _ => destruct a as [[l' temps] h'] end.

(** The settings of a named object after y.s1().s2()...: for each setting the last value given by the setters up to and
    including the first one that sets a generator; the others were called on a copy. *)
Theorem C68_chain_named : forall fuel q y ss f q', reachable q -> objectOf q y = Some f -> otherSources q y ss -> ss <> [] ->
  exec fuel (SChain y ss) q = Ok q' -> objectOf q' y = settled q (reaching ss) f.
Proof.
  intros fuel q y ss f q' HR Hf Ho Hne H. destruct (reachable_ok _ _ _ _ _ HR) as [HL _]. apply objectOf_some in Hf. destruct Hf as [v [Hv Hf]].
  cbn [SettingsModel.exec] in H. unfold varLoc in H. rewrite Hv in H. cbn [bind] in H. unbind H. destruct a as [[l' temps] h']. inversion H; subst. unfold objectOf. cbn [vars hp]. rewrite Hv.
  destruct (chain_both user _ _ _ _ _ _ _ _ HL Hv Hf Ho Hne Q) as [_ A].
  assert (Hl : vloc v < length (hp q)) by (apply nth_error_Some; congruence). destruct (chain_frame _ _ _ _ _ _ _ _ Q Hl) as [_ [_ [[nw [B1 [B2 _]]] _]]]. simpl in B1. subst nw.
  rewrite destroy_other by (intros J; apply B2 in J; lia). rewrite <- A. destruct (settled q (reaching ss) f); auto.
Qed.

(** The object made by auto x = y.s1().s2()...: for each setting the value given last; and what becomes of [y] is as above. *)
Theorem C68_chain_value : forall fuel q y ss f q', reachable q -> objectOf q y = Some f -> otherSources q y ss -> ss <> [] ->
  exec fuel (SCopy y ss) q = Ok q' -> objectOf q' (length (vars q)) = settled q ss f /\ objectOf q' y = settled q (reaching ss) f.
Proof.
  intros fuel q y ss f q' HR Hf Ho Hne H. destruct (reachable_ok _ _ _ _ _ HR) as [HL _]. apply objectOf_some in Hf. destruct Hf as [v [Hv Hf]].
  cbn [SettingsModel.exec] in H. unfold varLoc in H. rewrite Hv in H. cbn [bind] in H. unbind H. destruct a as [[l' temps] h']. unbind H. inversion H; subst. unfold objectOf. cbn [vars hp].
  destruct (chain_both user _ _ _ _ _ _ _ _ HL Hv Hf Ho Hne Q) as [A1 A2].
  assert (Hl : vloc v < length (hp q)) by (apply nth_error_Some; congruence). destruct (chain_frame _ _ _ _ _ _ _ _ Q Hl) as [A3 [_ [[nw [B1 [B2 _]]] _]]]. simpl in B1. subst nw.
  assert (Hy : y < length (vars q)) by (apply nth_error_Some; congruence).
  rewrite nth_error_app2 by auto. rewrite Nat.sub_diag. cbn [nth_error vloc]. rewrite nth_error_app1 by auto. rewrite Hv.
  rewrite !destroy_other by (intros J; apply B2 in J; lia). rewrite nth_error_app2 by auto. rewrite Nat.sub_diag. cbn [nth_error]. rewrite nth_error_app1 by lia.
  apply objectAt_some in Q0. rewrite Q0 in A1. rewrite <- A2. split; [destruct (settled q ss f); simpl in A1; congruence|]. destruct (settled q (reaching ss) f); auto.
Qed.

(** auto&& x = y.s1().s2()...: without setters of generators [x] is [y] itself, from now on; if the last call sets a generator, an object
    with all settings, of its own; if a generator is set earlier, but not by the last call, every use of [x] is undefined behaviour. *)
Theorem C68_bind : forall fuel q y ss f q1, reachable q -> objectOf q y = Some f -> otherSources q y ss -> ss <> [] -> exec fuel (SBind y ss) q = Ok q1 ->
  (lastSetsGenerator ss -> objectOf q1 (length (vars q)) = settled q ss f) /\
  (Forall (fun a => ~ setsGenerator a) ss -> forall fuel' p q2 n, run fuel' p q1 = Ok q2 -> exec n (SUse (length (vars q))) q2 = exec n (SUse y) q2) /\
  (Exists setsGenerator ss -> ~ lastSetsGenerator ss -> forall fuel' p q2 n, run fuel' p q1 = Ok q2 -> exec n (SUse (length (vars q))) q2 = UB).
Proof.
  intros fuel q y ss f q1 HR Hf Ho Hne H. destruct (reachable_ok _ _ _ _ _ HR) as [HL _]. apply objectOf_some in Hf. destruct Hf as [v [Hv Hf]].
  destruct (exec_cells _ _ _ _ _ _ _ _ HL H) as [_ [_ HL1]]. cbn [SettingsModel.exec] in H. unfold varLoc in H. rewrite Hv in H. cbn [bind] in H. unbind H. destruct a as [[l' temps] h'].
  destruct (chain_both user _ _ _ _ _ _ _ _ HL Hv Hf Ho Hne Q) as [A1 A2].
  assert (Hl : vloc v < length (hp q)) by (apply nth_error_Some; congruence). destruct (chain_frame _ _ _ _ _ _ _ _ Q Hl) as [A3 [_ [[nw [B1 [B2 _]]] _]]]. simpl in B1. subst nw.
  destruct (chain_ends user _ _ _ _ _ _ _ _ Q) as [C1 C2]; [intros t []|].
  assert (Hy : y < length (vars q)) by (apply nth_error_Some; congruence).
  split; [|split].
  - intros He. apply ends_iff in He. rewrite He in H. inversion H; subst. destruct (C1 He) as [tt [T1 T2]]. unfold objectOf. cbn [vars hp]. rewrite nth_error_app2 by auto. rewrite Nat.sub_diag. cbn [nth_error vloc].
    rewrite T1, removelast_last. rewrite destroy_other by auto. rewrite <- A1. destruct (settled q ss f); auto.
  - intros Hn. assert (He : endsInCopy ss = false).
    { clear -Hn. induction ss as [|a r IH]; auto. inversion Hn; subst. destruct r as [|b r]; [destruct a; simpl in *; auto; tauto|]. exact (IH H2). }
    rewrite He in H. destruct (chain_refers _ _ _ _ _ _ _ _ Q Hn) as [-> ->]. inversion H; subst. intros fuel' p q2 n Hr. destruct (run_vars _ _ _ _ _ _ _ _ HL1 Hr) as [_ [vs Hvs]]. cbn [vars] in Hvs.
    rewrite <- app_assoc in Hvs.
    rewrite (exec_use _ _ _ _ n q2 (length (vars q)) {| vloc := vloc v; vown := false |}) by (rewrite Hvs, nth_error_app2, Nat.sub_diag by auto; auto).
    rewrite (exec_use _ _ _ _ n q2 y v) by (rewrite Hvs, nth_error_app1 by auto; auto). reflexivity.
  - intros Hx He. apply not_ends in He. rewrite He in H. assert (Hin : In l' temps) by (apply C2; auto). inversion H; subst. intros fuel' p q2 n Hr. destruct (run_vars _ _ _ _ _ _ _ _ HL1 Hr) as [_ [vs Hvs]]. cbn [vars] in Hvs.
    rewrite <- app_assoc in Hvs.
    rewrite (exec_use _ _ _ _ n q2 (length (vars q)) {| vloc := l'; vown := false |}) by (rewrite Hvs, nth_error_app2, Nat.sub_diag by auto; auto).
    unfold inPlace. cbn [vloc snd]. rewrite (run_dead _ _ _ _ fuel' l' p _ _ HL1 Hr); auto. cbn [hp]. apply destroy_in; auto. apply B2. auto.
Qed.


(** ** Copies and derived generators *)

(** A generator object without shared parts, copied: the copy gives what the original gives; from then on nothing that does not name the copy has an
    effect on it. *)
Theorem C68_copy_apart : forall fuel q y f q1, reachable q -> objectOf q y = Some f -> owned f -> exec fuel (SCopy y []) q = Ok q1 ->
  (forall n r, observe n q1 (length (vars q)) r = observe n q y r) /\
  forall fuel' p q2, unnamed (length (vars q)) p -> run fuel' p q1 = Ok q2 ->
  forall n r, observe n q2 (length (vars q)) r = observe n q1 (length (vars q)) r.
Proof.
  intros fuel q y f q1 HR Hf Ho H. destruct (reachable_ok _ _ _ _ _ HR) as [HL HV]. apply objectOf_some in Hf. destruct Hf as [v [Hv Hf]].
  destruct (exec_cells _ _ _ _ _ _ _ _ HL H) as [_ [_ HL1]]. cbn [SettingsModel.exec] in H. unfold varLoc in H. rewrite Hv in H. cbn [bind chain] in H.
  unfold objectAt in H. rewrite Hf in H. cbn [bind destroy fold_left] in H. inversion H; subst. clear H. split.
  - intros n r. rewrite !observe_eq. unfold varLoc. cbn [vars hp]. rewrite nth_error_app2, Nat.sub_diag by auto. rewrite Hv. cbn [nth_error bind vloc].
    apply (owned_inPlace user seq seq2 lt n f); auto. rewrite nth_error_app2, Nat.sub_diag by auto. reflexivity.
  - intros fuel' p q2 Hu Hr n r.
    eapply (separate_observe user seq seq2 lt fuel' (fun l => l = length (hp q)) (length (vars q))); [exact HL1| | | |exact Hu|exact Hr].
    + eapply (new_separate user q); [exact HL|exact HV|reflexivity|reflexivity| | | |]; cbn [hp vars].
      * intros l ->. rewrite app_length. simpl. lia.
      * intros l g Hg ->. rewrite nth_error_app2, Nat.sub_diag in Hg by auto. inversion Hg; subst. apply owned_any. auto.
      * intros l g Hg Hl. assert (L : l < length (hp q ++ [Some f])) by (apply nth_error_Some; congruence). rewrite app_length in L. simpl in L. lia.
      * reflexivity.
    + cbn [vars]. rewrite nth_error_app2, Nat.sub_diag by auto. reflexivity.
    + reflexivity.
Qed.

(** A generator derived by map or filter from an object without shared parts takes a copy of it: later changes of the original's settings, its use, its end, and
    anything else that does not name the derived generator have no effect on it. *)
Theorem C68_derived_apart : forall fuel q y f d q1 fuel' p q2, reachable q -> objectOf q y = Some f -> owned f -> exec fuel (SDerive y [] d) q = Ok q1 ->
  unnamed (length (vars q)) p -> run fuel' p q1 = Ok q2 ->
  forall n r, observe n q2 (length (vars q)) r = observe n q1 (length (vars q)) r.
Proof.
  intros fuel q y f d q1 fuel' p q2 HR Hf Ho H Hu Hr n r. destruct (reachable_ok _ _ _ _ _ HR) as [HL HV]. apply objectOf_some in Hf. destruct Hf as [v [Hv Hf]].
  destruct (exec_cells _ _ _ _ _ _ _ _ HL H) as [_ [_ HL1]]. cbn [SettingsModel.exec] in H. unfold varLoc in H. rewrite Hv in H. cbn [bind chain] in H.
  unfold objectAt in H. rewrite Hf in H. cbn [bind destroy fold_left] in H. inversion H; subst. clear H. set (N := length (hp q)) in *.
  eapply (separate_observe user seq seq2 lt fuel' (fun l => N <= l < N + 3) (length (vars q))); [exact HL1| | | |exact Hu|exact Hr].
  - eapply (new_separate user q); [exact HL|exact HV|reflexivity|reflexivity| | | |]; cbn [hp vars].
    + intros l Hl. rewrite app_length. fold N. simpl. lia.
    + intros l g Hg Hl. rewrite nth_error_app2 in Hg by (fold N; lia). fold N in Hg. destruct (l - N) as [|[|[|x]]]; simpl in Hg; try (destruct x; discriminate); inversion Hg; subst; simpl; try lia.
      apply owned_any. auto.
    + intros l g Hg Hl. assert (L : l < length (hp q ++ [Some f; Some (FDerive N d); Some (FPtr (S N))])) by (apply nth_error_Some; congruence). rewrite app_length in L. fold N in Hl, L. simpl in L. lia.
    + simpl. lia.
  - cbn [vars]. rewrite nth_error_app2, Nat.sub_diag by auto. reflexivity.
  - simpl. lia.
Qed.

(** Whatever is done afterwards, by anyone: the values of x.map(f) are images of vectors whose size is within the bounds x had when the
    derived generator was made, and so are all their shrinks. *)
Theorem C68_derived_sizes : forall fuel q y mn mx g0 g1 f q1 fuel' p q2 n q3, reachable q -> objectOf q y = Some (FArbi KVector {| minSize := mn; maxSize := mx |} g0 g1) ->
  (0 <= mn)%Z -> (mn <= mx)%Z -> (mx <= UINT32_MAX)%Z -> exec fuel (SDerive y [] (DMap f)) q = Ok q1 -> run fuel' p q1 = Ok q2 ->
  exec n (SUse (length (vars q))) q2 = Ok q3 ->
  exists t, out q3 = out q2 ++ [t] /\ all_values (fun v => exists l, v = f (seq l) /\ (mn <= size l <= mx)%Z) t.
Proof.
  intros fuel q y mn mx g0 g1 f q1 fuel' p q2 n q3 HR Hf B1 B2 B3 H Hr Hx. destruct (reachable_ok _ _ _ _ _ HR) as [HL HV]. apply objectOf_some in Hf. destruct Hf as [v [Hv Hf]].
  destruct (exec_cells _ _ _ _ _ _ _ _ HL H) as [_ [_ HL1]]. cbn [SettingsModel.exec] in H. unfold varLoc in H. rewrite Hv in H. cbn [bind chain] in H.
  unfold objectAt in H. rewrite Hf in H. cbn [bind destroy fold_left] in H. inversion H; subst. clear H. set (N := length (hp q)) in *.
  set (q1 := {| hp := hp q ++ _; vars := _; defaults := _; rnd := _; out := _ |}) in *.
  assert (HN : forall k, k <> 2 -> ~ named q1 (N + k)).
  { intros k Hk [w [W1 W2]]. simpl in W1. apply in_app_or in W1. destruct W1 as [W1|[W1|[]]]; [apply HL in W1; unfold N in W2; lia|]. subst w. simpl in W2. lia. }
  assert (HC : forall k, nth_error (hp q1) (N + k) = nth_error [Some (FArbi KVector {| minSize := mn; maxSize := mx |} g0 g1); Some (FDerive N (DMap f)); Some (FPtr (S N))] k).
  { intros k. simpl. rewrite nth_error_app2 by (unfold N; lia). f_equal. unfold N. lia. }
  assert (HLen : length (hp q1) = N + 3) by (simpl; rewrite app_length; reflexivity).
  destruct (run_vars _ _ _ _ _ _ _ _ HL1 Hr) as [_ [vs Hvs]]. simpl in Hvs. rewrite <- app_assoc in Hvs.
  assert (V1 : nth_error (vars q2) (length (vars q)) = Some {| vloc := S (S N); vown := true |}) by (rewrite Hvs, nth_error_app2, Nat.sub_diag by auto; auto).
  destruct (use_ok _ _ _ _ _ _ _ _ _ V1 Hx) as [t [r [h [Hi Ht]]]]. clear Hx. rename Hi into Hx. exists t. split; [exact Ht|].
  destruct (run_hidden _ _ _ _ fuel' (N + 0) p q1 q2 HL1 Hr) as [D0 _]; [lia|apply HN; lia|].
  destruct (run_hidden _ _ _ _ fuel' (N + 1) p q1 q2 HL1 Hr) as [D1 _]; [lia|apply HN; lia|].
  pose proof (HC 2) as C2. pose proof (run_pointer _ _ _ _ fuel' (N + 2) (FPtr (S N)) p q1 q2 HL1 Hr I C2) as D2.
  rewrite (HC 0) in D0. rewrite (HC 1) in D1. rewrite Nat.add_0_r in D0. replace (N + 1) with (S N) in D1 by lia. replace (N + 2) with (S (S N)) in D2 by lia. clearbody N. clear -B1 B2 B3 D0 D1 D2 Hx.
  cbn [vloc] in Hx.
  destruct D2 as [D2|D2]; [|unfold inPlace in Hx; cbn [snd] in Hx; rewrite D2 in Hx; discriminate].
  destruct (nth_error (hp q2) N) as [[f0|]|] eqn:F0; try discriminate. destruct (nth_error (hp q2) (S N)) as [[f1|]|] eqn:F1; try discriminate.
  simpl in D0, D1. destruct f1; simpl in D1; try discriminate. inversion D1; subst. destruct f0 as [| |k z a b| | |]; simpl in D0; try discriminate. injection D0 as K1 K2 K3 K4. subst k z.
  destruct n as [|n]; [unfold inPlace in Hx; cbn [snd] in Hx; rewrite D2 in Hx; discriminate|].
  pose proof (eq_trans (eq_sym (inPlace_pointer user seq seq2 lt n _ _ (S N) (rnd q2) (hp q2) D2 (or_introl eq_refl))) Hx) as Ei.
  destruct (inPlace_ok _ _ _ _ _ _ _ _ _ _ Ei F1) as [x1 [s1 Ej]]. destruct (call_map_ok _ _ _ _ _ _ _ _ _ _ _ Ej) as [n1 [t1 [s2 [Ek ->]]]].
  destruct (inPlace_ok _ _ _ _ _ _ _ _ _ _ Ek F0) as [x2 [s3 El]]. destruct (call_vector_ok _ _ _ _ _ _ _ _ _ _ _ _ El) as [n2 [t2 [s4 [Ea ->]]]].
  destruct (C22_vector (ext (ext E (heap V U)) (fn V U * fn V U)) V (member (call n2) false) mn mx (rnd q2, hp q2, (a, b)) B1 B2 B3) as [k [r2 [_ [Hk Hi]]]]. destruct (proj1 (Hi _ _) Ea) as [vec [_ [_ [_ [_ Hall]]]]].
  rewrite map_tree_comp. intros s Hs. apply reach_map_inv in Hs. destruct Hs as [s0 [Hs ->]]. rewrite root_map. exists (root s0). split; auto. apply Hall in Hs. lia.
Qed.

(** ** Sharing *)

(** Copies of a Generator share their state: as long as both exist, to call one is to call the other. *)
Theorem C68_generator_copies_share : forall fuel q y l q1 fuel' p q2 f f', reachable q -> objectOf q y = Some (FPtr l) -> exec fuel (SCopy y []) q = Ok q1 -> run fuel' p q1 = Ok q2 ->
  objectOf q2 y = Some f -> objectOf q2 (length (vars q)) = Some f' -> forall n, exec n (SUse (length (vars q))) q2 = exec n (SUse y) q2.
Proof.
  intros fuel q y l q1 fuel' p q2 f f' HR Hf H Hr Hy Hx n. destruct (reachable_ok _ _ _ _ _ HR) as [HL HV]. apply objectOf_some in Hf. destruct Hf as [v [Hv Hf]].
  destruct (exec_cells _ _ _ _ _ _ _ _ HL H) as [_ [_ HL1]]. cbn [SettingsModel.exec] in H. unfold varLoc in H. rewrite Hv in H. cbn [bind chain] in H.
  unfold objectAt in H. rewrite Hf in H. cbn [bind destroy fold_left] in H. inversion H; subst. clear H. set (N := length (hp q)) in *.
  set (q1 := {| hp := hp q ++ _; vars := _; defaults := _; rnd := _; out := _ |}) in *.
  assert (C1 : nth_error (hp q1) (vloc v) = Some (Some (FPtr l))) by (simpl; rewrite nth_error_app1 by (apply nth_error_Some; congruence); auto).
  assert (C2 : nth_error (hp q1) N = Some (Some (FPtr l))) by (simpl; rewrite nth_error_app2 by auto; unfold N; rewrite Nat.sub_diag; auto).
  assert (Hyv : y < length (vars q)) by (apply nth_error_Some; congruence).
  destruct (run_vars _ _ _ _ _ _ _ _ HL1 Hr) as [_ [vs Hvs]]. simpl in Hvs. rewrite <- app_assoc in Hvs.
  assert (V1 : nth_error (vars q2) (length (vars q)) = Some {| vloc := N; vown := true |}) by (rewrite Hvs, nth_error_app2, Nat.sub_diag by auto; auto).
  assert (V2 : nth_error (vars q2) y = Some v) by (rewrite Hvs, nth_error_app1 by auto; auto).
  rewrite (exec_use _ _ _ _ n q2 _ _ V1), (exec_use _ _ _ _ n q2 _ _ V2).
  pose proof (run_pointer _ _ _ _ fuel' _ (FPtr l) p q1 q2 HL1 Hr I C1) as D1. pose proof (run_pointer _ _ _ _ fuel' _ (FPtr l) p q1 q2 HL1 Hr I C2) as D2.
  unfold objectOf in Hy, Hx. rewrite V2 in Hy. rewrite V1 in Hx. cbn [vloc] in *.
  destruct D1 as [D1|D1]; [|rewrite D1 in Hy; discriminate]. destruct D2 as [D2|D2]; [|rewrite D2 in Hx; discriminate].
  destruct n as [|n]; [unfold inPlace; cbn [snd]; rewrite D1, D2; reflexivity|].
  rewrite (inPlace_pointer user seq seq2 lt n _ _ l _ _ D1 (or_introl eq_refl)), (inPlace_pointer user seq seq2 lt n _ _ l _ _ D2 (or_introl eq_refl)). reflexivity.
Qed.

(** reference(x) gives what x gives, with all later changes of x, and leaves x as a call of x would; when x is gone, undefined behaviour. *)
Theorem C68_reference_follows : forall fuel q y f q1 fuel' p q2 f', reachable q -> objectOf q y = Some f -> exec fuel (SRefer y []) q = Ok q1 -> run fuel' p q1 = Ok q2 ->
  objectOf q2 (length (vars q)) = Some f' ->
  (forall n, exec (S (S n)) (SUse (length (vars q))) q2 = exec n (SUse y) q2) /\
  (objectOf q2 y = None -> forall n, exec (S (S n)) (SUse (length (vars q))) q2 = UB).
Proof.
  intros fuel q y f q1 fuel' p q2 f' HR Hf H Hr Hx. destruct (reachable_ok _ _ _ _ _ HR) as [HL HV]. apply objectOf_some in Hf. destruct Hf as [v [Hv Hf]].
  destruct (exec_cells _ _ _ _ _ _ _ _ HL H) as [_ [_ HL1]]. cbn [SettingsModel.exec] in H. unfold varLoc in H. rewrite Hv in H. cbn [bind chain] in H.
  cbn [bind destroy fold_left] in H. inversion H; subst. clear H. set (N := length (hp q)) in *.
  set (q1 := {| hp := hp q ++ _; vars := _; defaults := _; rnd := _; out := _ |}) in *.
  assert (C1 : nth_error (hp q1) N = Some (Some (FRef (vloc v)))) by (simpl; rewrite nth_error_app2 by auto; unfold N; rewrite Nat.sub_diag; auto).
  assert (C2 : nth_error (hp q1) (S N) = Some (Some (FPtr N))) by (unfold q1; cbn [hp]; rewrite nth_error_app2 by (unfold N; auto); replace (S N - length (hp q)) with 1 by (unfold N; lia); auto).
  assert (Hyv : y < length (vars q)) by (apply nth_error_Some; congruence).
  destruct (run_vars _ _ _ _ _ _ _ _ HL1 Hr) as [_ [vs Hvs]]. simpl in Hvs. rewrite <- app_assoc in Hvs.
  assert (V1 : nth_error (vars q2) (length (vars q)) = Some {| vloc := S N; vown := true |}) by (rewrite Hvs, nth_error_app2, Nat.sub_diag by auto; auto).
  assert (V2 : nth_error (vars q2) y = Some v) by (rewrite Hvs, nth_error_app1 by auto; auto).
  pose proof (run_pointer _ _ _ _ fuel' _ (FPtr N) p q1 q2 HL1 Hr I C2) as D2. unfold objectOf in Hx. rewrite V1 in Hx. cbn [vloc] in Hx. destruct D2 as [D2|D2]; [|rewrite D2 in Hx; discriminate].
  assert (D1 : nth_error (hp q2) N = Some (Some (FRef (vloc v)))).
  { destruct (run_hidden _ _ _ _ fuel' N p q1 q2 HL1 Hr) as [D1 _].
    - simpl. rewrite app_length. unfold N. simpl. lia.
    - intros [w [W1 W2]]. simpl in W1. apply in_app_or in W1. destruct W1 as [W1|[W1|[]]]; [apply HL in W1; unfold N in W2; lia|]. subst w. simpl in W2. lia.
    - rewrite C1 in D1. destruct (nth_error (hp q2) N) as [[g|]|]; simpl in D1; try discriminate. inversion D1 as [D]. destruct g; simpl in D; try discriminate. inversion D; subst. auto. }
  assert (HX : forall n, exec (S (S n)) (SUse (length (vars q))) q2 = exec n (SUse y) q2).
  { intros n. rewrite (exec_use _ _ _ _ (S (S n)) q2 _ _ V1), (exec_use _ _ _ _ n q2 _ _ V2). cbn [vloc].
    rewrite (inPlace_pointer user seq seq2 lt (S n) _ _ N _ _ D2 (or_introl eq_refl)), (inPlace_pointer user seq seq2 lt n _ _ (vloc v) _ _ D1 (or_intror eq_refl)). reflexivity. }
  split; auto. intros Hg n. rewrite HX, (exec_use _ _ _ _ n q2 _ _ V2). unfold objectOf in Hg. rewrite V2 in Hg. unfold inPlace. cbn [snd]. destruct (nth_error (hp q2) (vloc v)) as [[g|]|]; auto. discriminate.
Qed.

(** reference() of an expression that makes a temporary: undefined behaviour, whenever the generator is called. *)
Theorem C68_reference_temporary : forall fuel q y ss f q1 fuel' p q2 f', reachable q -> objectOf q y = Some f -> Exists setsGenerator ss -> exec fuel (SRefer y ss) q = Ok q1 -> run fuel' p q1 = Ok q2 ->
  objectOf q2 (length (vars q)) = Some f' -> forall n, exec (S (S n)) (SUse (length (vars q))) q2 = UB.
Proof.
  intros fuel q y ss f q1 fuel' p q2 f' HR Hf He H Hr Hx n. destruct (reachable_ok _ _ _ _ _ HR) as [HL HV]. apply objectOf_some in Hf. destruct Hf as [v [Hv Hf]].
  destruct (exec_cells _ _ _ _ _ _ _ _ HL H) as [_ [_ HL1]]. cbn [SettingsModel.exec] in H. unfold varLoc in H. rewrite Hv in H. cbn [bind] in H. unbind H. destruct a as [[l' temps] h']. 
  assert (Hl : vloc v < length (hp q)) by (apply nth_error_Some; congruence). destruct (chain_frame _ _ _ _ _ _ _ _ Q Hl) as [A3 [_ [[nw [B1 [B2 _]]] _]]]. simpl in B1. subst nw.
  destruct (chain_ends user _ _ _ _ _ _ _ _ Q) as [_ Ce]; [intros t []|]. assert (Hin : In l' temps) by (apply Ce; auto). clear Ce.
  inversion H; subst. clear H. set (N := length h') in *.
  set (q1 := {| hp := destroy _ _; vars := _; defaults := _; rnd := _; out := _ |}) in *.
  assert (C0 : nth_error (hp q1) l' = Some None) by (simpl; apply destroy_in; auto; rewrite app_length; apply B2 in Hin; lia).
  assert (C1 : nth_error (hp q1) N = Some (Some (FRef l'))) by (simpl; rewrite destroy_other by (intros J; apply B2 in J; unfold N in *; lia); rewrite nth_error_app2 by auto; unfold N; rewrite Nat.sub_diag; auto).
  assert (C2 : nth_error (hp q1) (S N) = Some (Some (FPtr N))).
  { unfold q1; cbn [hp]; rewrite destroy_other by (intros J; apply B2 in J; unfold N in *; lia); rewrite nth_error_app2 by (unfold N; auto). replace (S N - length h') with 1 by (unfold N; lia). auto. }
  destruct (run_vars _ _ _ _ _ _ _ _ HL1 Hr) as [_ [vs Hvs]]. simpl in Hvs. rewrite <- app_assoc in Hvs.
  assert (V1 : nth_error (vars q2) (length (vars q)) = Some {| vloc := S N; vown := true |}) by (rewrite Hvs, nth_error_app2, Nat.sub_diag by auto; auto).
  pose proof (run_pointer _ _ _ _ fuel' _ (FPtr N) p q1 q2 HL1 Hr I C2) as D2. unfold objectOf in Hx. rewrite V1 in Hx. cbn [vloc] in Hx. destruct D2 as [D2|D2]; [|rewrite D2 in Hx; discriminate].
  pose proof (run_dead _ _ _ _ fuel' l' p _ _ HL1 Hr C0) as D0.
  rewrite (exec_use _ _ _ _ (S (S n)) q2 _ _ V1). cbn [vloc]. rewrite (inPlace_pointer user seq seq2 lt (S n) _ _ N _ _ D2 (or_introl eq_refl)).
  destruct (run_pointer _ _ _ _ fuel' _ (FRef l') p q1 q2 HL1 Hr I C1) as [D1|D1].
  - rewrite (inPlace_pointer user seq seq2 lt n _ _ l' _ _ D1 (or_intror eq_refl)). unfold inPlace. cbn [snd]. rewrite D0. reflexivity.
  - unfold inPlace. cbn [snd]. rewrite D1. reflexivity.
Qed.

(** ** Lifetimes *)

(** The statements that make an object of their own for the variable they declare. *)
Definition makesObject (c : stmt E V U) : Prop :=
  match c with
  | SNew _ _ _ | SFun _ | SGen _ | SCopy _ _ | SDerive _ _ _ | SRefer _ _ => True
  | SBind _ ss => lastSetsGenerator ss
  | _ => False
  end.

Lemma makes_var : forall fuel c q q1, makesObject c -> exec fuel c q = Ok q1 -> exists l, vars q1 = vars q ++ [{| vloc := l; vown := true |}].
Proof.
  intros fuel c q q1 Hm H. destruct c; simpl in Hm; try contradiction; cbn [SettingsModel.exec] in H; repeat unbind H; try (destruct a0 as [[l' temps] h']); try (destruct a as [[l' temps] h']); repeat unbind H.
  all: try (inversion H; subst; eexists; reflexivity).
  apply ends_iff in Hm. rewrite Hm in H. inversion H; subst. eexists. reflexivity.
Qed.

(** The object ends with the variable it was made for: whatever is done before and after, using the variable after its end is undefined behaviour.  A
    variable that names an object of another variable ends without effect. *)
Theorem C68_lifetime : forall fuel c q q1 fuel1 p1 q2, reachable q -> exec fuel c q = Ok q1 -> run fuel1 p1 q1 = Ok q2 ->
  (makesObject c -> forall k q3 fuel2 p2 q4 n, exec k (SDrop (length (vars q))) q2 = Ok q3 -> run fuel2 p2 q3 = Ok q4 -> exec n (SUse (length (vars q))) q4 = UB) /\
  (forall y ss, c = SBind y ss -> ~ lastSetsGenerator ss -> forall k, exec k (SDrop (length (vars q))) q2 = Ok q2).
Proof.
  intros fuel c q q1 fuel1 p1 q2 HR H Hr. destruct (reachable_ok _ _ _ _ _ HR) as [HL _]. destruct (exec_cells _ _ _ _ _ _ _ _ HL H) as [_ [_ HL1]].
  destruct (run_vars _ _ _ _ _ _ _ _ HL1 Hr) as [HL2 [vs Hvs]]. split.
  - intros Hm k q3 fuel2 p2 q4 n Hd Hr2. destruct (makes_var _ _ _ _ Hm H) as [l Hl]. rewrite Hl, <- app_assoc in Hvs.
    assert (V2 : nth_error (vars q2) (length (vars q)) = Some {| vloc := l; vown := true |}) by (rewrite Hvs, nth_error_app2, Nat.sub_diag by auto; auto).
    cbn [SettingsModel.exec] in Hd. rewrite V2 in Hd. cbn [vown vloc] in Hd. inversion Hd; subst q3. clear Hd.
    set (q3 := {| hp := _; vars := _; defaults := _; rnd := _; out := _ |}) in *.
    assert (HL3 : located q3). { intros v Hv. simpl. rewrite setnth_len. apply HL2. auto. }
    assert (Ll : l < length (hp q2)) by (apply (HL2 {| vloc := l; vown := true |}); eapply nth_error_In; eauto).
    assert (D3 : nth_error (hp q3) l = Some None). { simpl. destruct (nth_error (hp q2) l) as [o|] eqn:Eo; [|apply nth_error_None in Eo; lia]. eapply setnth_at; eauto. }
    pose proof (run_dead _ _ _ _ fuel2 l p2 _ _ HL3 Hr2 D3) as D4. destruct (run_vars _ _ _ _ _ _ _ _ HL3 Hr2) as [_ [vs' Hvs']]. cbn [vars q3] in Hvs'.
    assert (Hlt : length (vars q) < length (vars q2)) by (apply nth_error_Some; congruence).
    rewrite (exec_use _ _ _ _ n q4 (length (vars q)) {| vloc := l; vown := true |}) by (rewrite Hvs', nth_error_app1 by auto; auto).
    unfold inPlace. cbn [vloc snd]. rewrite D4. reflexivity.
  - intros y ss -> He k. apply not_ends in He. cbn [SettingsModel.exec] in H. unbind H. unbind H. destruct a0 as [[l' temps] h']. rewrite He in H. inversion H; subst q1. clear H.
    cbn [vars] in Hvs. rewrite <- app_assoc in Hvs. cbn [SettingsModel.exec]. rewrite Hvs at 1. rewrite nth_error_app2, Nat.sub_diag by auto. simpl. destruct q2; reflexivity.
Qed.

(** ** forAll *)

(** forAll copies its generators: for an object without shared parts the inputs depend on the object and the engine only, and the object is as before. *)
Theorem C68_repeat : forall fuel q q' y y' f r n b q1, objectOf q y = Some f -> objectOf q' y' = Some f -> owned f -> exec fuel (SForAll y r n b) q = Ok q1 ->
  hp q1 = hp q /\ exists q1' ts, exec fuel (SForAll y' r n b) q' = Ok q1' /\ out q1 = out q ++ ts /\ out q1' = out q' ++ ts.
Proof.
  intros fuel q q' y y' f r n b q1 Hf Hf' Ho H. apply objectOf_some in Hf. destruct Hf as [v [Hv Hf]]. apply objectOf_some in Hf'. destruct Hf' as [v' [Hv' Hf']].
  cbn [SettingsModel.exec] in *. unfold varLoc in *. rewrite Hv in H. rewrite Hv'. cbn [bind] in *. unfold objectAt in *. rewrite Hf in H. rewrite Hf'. cbn [bind] in *.
  unbind H. destruct a as [ts h']. inversion H; subst. destruct (owned_forAll _ _ _ _ _ _ _ _ _ _ _ _ Ho Q) as [-> Hany]. split; auto. rewrite Hany. cbn [bind]. eexists. exists ts. split; [reflexivity|]. auto.
Qed.

(** After a failure the generator is called again: if no callable of the user keeps state, the input shown and shrunk is the one that failed. *)
Theorem C68_regenerated : stateless user -> forall fuel q y r n q1, exec fuel (SForAll y r (S n) true) q = Ok q1 ->
  exists ts t, out q1 = out q ++ ts ++ [t; t] /\ length ts = n.
Proof.
  intros Hst fuel q y r n q1 H. cbn [SettingsModel.exec] in H. unbind H. unbind H. unbind H. destruct a1 as [ts h']. inversion H; subst. cbn [out]. clear H. rename a0 into f.
  unfold forAllInputs in Q1. unbind Q1. destruct a0 as [[[ts2 f2] s2] sv2]. destruct (stateless_inputs user seq seq2 lt Hst _ _ _ _ _ _ _ _ Q2) as [-> [H1 [ts0 [t0 [f3 [s3 [-> [H3 [H4 H5]]]]]]]]].
  cbn [snd] in *. rewrite H1 in Q1. rewrite H4 in Q1. cbn [bind] in Q1. inversion Q1; subst. exists ts0, t0. rewrite <- app_assoc. auto.
Qed.

(** ** Defaults *)

(** A new container generator takes the default sizes of the moment; objects that exist, of whatever kind, keep theirs. *)
Theorem C68_defaults : forall fuel z q q1, exec fuel (SDefaults z) q = Ok q1 ->
  (forall y, objectOf q1 y = objectOf q y) /\
  (forall k g0 g1 q2, exec fuel (SNew k g0 g1) q1 = Ok q2 -> exists f0 f1, objectOf q2 (length (vars q)) = Some (FArbi k z f0 f1)) /\
  (forall n y r, observe n q1 y r = observe n q y r).
Proof.
  intros fuel z q q1 H. cbn [SettingsModel.exec] in H. inversion H; subst. split; [intros y; reflexivity|]. split.
  - intros k g0 g1 q2 H2. cbn [SettingsModel.exec] in H2. unbind H2. unbind H2. inversion H2; subst. exists a, a0. unfold objectOf. cbn [vars hp]. rewrite nth_error_app2, Nat.sub_diag by auto.
    cbn [nth_error vloc]. rewrite nth_error_app2, Nat.sub_diag by auto. reflexivity.
  - intros n y r. rewrite !observe_eq. reflexivity.
Qed.
End Settings.

(** ** Examples *)
Inductive C68_val := Num (z : Z) | Seq (l : list C68_val).
(** Code 0 counts its calls; the others draw a number and keep no state. *)
Definition C68_user (c : nat) (u : Z) : G replay (tree C68_val * Z) :=
  match c with
  | O => fun r => Ok ((Node (Num u) [], (u + 1)%Z), r)
  | S _ => fun r => let '(z, r') := unif replay 0 9 r in Ok ((Node (Num z) [], u), r')
  end.
Definition C68_draws (c : nat) (u : Z) : G replay (tree C68_val * Z) :=
  fun r => let '(z, r') := unif replay 0 9 r in Ok ((Node (Num z) [], u), r').
Definition C68_seq2 (l : list (C68_val * C68_val)) : C68_val := Seq (map (fun p => Seq [fst p; snd p]) l).
Definition C68_lt (a b : C68_val) : bool := match a, b with Num x, Num y => Z.ltb x y | _, _ => false end.
Notation runs := (run C68_user Seq C68_seq2 C68_lt 9).
Notation execs := (exec C68_user Seq C68_seq2 C68_lt).
Notation sees := (observe C68_user Seq C68_seq2 C68_lt 9).
Definition C68_start : st replay C68_val Z := begin ([3; 8; 0; 2; 77]%Z : rst replay) {| minSize := 1; maxSize := 4 |}.
Definition C68_sz mn mx := {| minSize := mn; maxSize := mx |}.
(** What a state shows of its output. *)
Definition C68_out (x : res (st replay C68_val Z)) : option (list C68_val) := match x with Ok q => Some (map root (out q)) | _ => None end.
Definition C68_obs (x : res (tree C68_val * rst replay)) : option C68_val := match x with Ok (t, _) => Some (root t) | _ => None end.
Definition C68_state (p : list (stmt replay C68_val Z)) : st replay C68_val Z := match runs p C68_start with Ok q => q | _ => C68_start end.

(** auto x = vector of drawn numbers; x.setMinSize(2).setElemGen(counter).setMaxSize(9).setMinSize(7): x has minimum size 2 and the new element generator; the rest went to a copy. *)
Definition C68_p : list (stmt replay C68_val Z) := [SNew KVector (FromUser 1 0%Z) (FromUser 0 0%Z)].
Definition C68_ss : list (setter Z) := [SetMin 2; SetElem (FromUser 0 5%Z); SetMax 9; SetMin 7].
Example C68_chain_ex : exists q', reachable C68_user Seq C68_seq2 C68_lt (C68_state C68_p) /\ otherSources (C68_state C68_p) 0 C68_ss /\
  execs 9 (SChain 0 C68_ss) (C68_state C68_p) = Ok q' /\ objectOf q' 0 = Some (FArbi KVector (C68_sz 2 4) (FUser 0 5%Z) FEmpty).
Proof.
  eexists. split; [exists 9, C68_p, ([3; 8; 0; 2; 77]%Z : rst replay), (C68_sz 1 4); reflexivity|]. split; [intros v y' v' _ []|]. split; reflexivity.
Qed.
Example C68_value_ex : exists q', execs 9 (SCopy 0 C68_ss) (C68_state C68_p) = Ok q' /\
  objectOf q' 1 = Some (FArbi KVector (C68_sz 7 9) (FUser 0 5%Z) FEmpty) /\ objectOf q' 0 = Some (FArbi KVector (C68_sz 2 4) (FUser 0 5%Z) FEmpty).
Proof. eexists. split; [reflexivity|]. split; reflexivity. Qed.
(** A map: setKeyGen(k).setElemGen(e) on a named object loses e. *)
Definition C68_p_map : list (stmt replay C68_val Z) := [SNew KMap (FromUser 1 0%Z) (FromUser 1 0%Z)].
Example C68_map_ex : exists q', execs 9 (SChain 0 [SetKey (FromUser 0 7%Z); SetElem (FromUser 0 8%Z)]) (C68_state C68_p_map) = Ok q' /\
  objectOf q' 0 = Some (FArbi KMap (C68_sz 1 4) (FUser 0 7%Z) (FUser 1 0%Z)).
Proof. eexists. split; reflexivity. Qed.
(** auto&& x = y.setElemGen(g): fine; auto&& x = y.setElemGen(g).setSize(2): dangling. *)
Example C68_bind_ex : C68_out (runs (C68_p ++ [SBind 0 [SetSize 2; SetElem (FromUser 0 5%Z)]; SUse 1]) C68_start) = Some [Seq [Num 5; Num 6]] /\
  C68_out (runs (C68_p ++ [SBind 0 [SetSize 2]; SUse 1]) C68_start) = Some [Seq [Num 8; Num 0]] /\
  runs (C68_p ++ [SBind 0 [SetElem (FromUser 0 5%Z); SetSize 2]; SUse 1]) C68_start = UB /\
  ~ lastSetsGenerator [SetElem (FromUser 0 5%Z); SetSize 2] /\ Exists setsGenerator [SetElem (FromUser 0 5%Z); SetSize 2].
Proof.
  split; [vm_compute; reflexivity|]. split; [vm_compute; reflexivity|]. split; [vm_compute; reflexivity|]. split.
  - intros [r [a [H Ha]]]. destruct r as [|b [|c r]]; inversion H; subst; simpl in Ha; auto. destruct r; discriminate.
  - left. exact I.
Qed.

(** x of three counted numbers; d = x.map(...); x.setSize(1); x(rand); the end of x: d is as before, and counts from where x was when d was made. *)
Definition C68_q : list (stmt replay C68_val Z) := [SNew KVector (FromUser 0 0%Z) (FromUser 0 0%Z); SChain 0 [SetSize 3]; SUse 0].
Definition C68_tag (v : C68_val) : C68_val := Seq [v; Num (-1)].
Definition C68_later : list (stmt replay C68_val Z) := [SChain 0 [SetSize 1]; SUse 0; SUse 0; SDrop 0].
Example C68_derived_ex : exists q q1 q2, runs C68_q C68_start = Ok q /\ objectOf q 0 = Some (FArbi KVector (C68_sz 3 3) (FUser 0 3%Z) FEmpty) /\
  execs 9 (SDerive 0 [] (DMap C68_tag)) q = Ok q1 /\ unnamed 1 C68_later /\ runs C68_later q1 = Ok q2 /\
  C68_obs (sees q2 1 [0]%Z) = Some (C68_tag (Seq [Num 3; Num 4; Num 5])) /\ objectOf q2 0 = None.
Proof.
  eexists _, _, _. split; [vm_compute; reflexivity|]. split; [reflexivity|]. split; [vm_compute; reflexivity|].
  split; [intros c [<-|[<-|[<-|[<-|[]]]]] H; repeat (destruct H as [H|H]; [discriminate|]); inversion H|]. split; [vm_compute; reflexivity|]. split; vm_compute; reflexivity.
Qed.
(** The same for a copy; and with the copy of a Generator, whose calls advance the original. *)
Example C68_copy_ex : exists q q1 q2, runs C68_q C68_start = Ok q /\ execs 9 (SCopy 0 []) q = Ok q1 /\ runs C68_later q1 = Ok q2 /\
  C68_obs (sees q2 1 [0]%Z) = Some (Seq [Num 3; Num 4; Num 5]).
Proof. eexists _, _, _. split; [vm_compute; reflexivity|]. split; [vm_compute; reflexivity|]. split; [vm_compute; reflexivity|]. vm_compute; reflexivity. Qed.
Example C68_share_ex : C68_out (runs [SGen (FromUser 0 0%Z); SCopy 0 []; SUse 0; SUse 1; SUse 0] C68_start) = Some [Num 0; Num 1; Num 2] /\
  C68_out (runs [SFun (FromUser 0 0%Z); SCopy 0 []; SUse 0; SUse 1; SUse 0] C68_start) = Some [Num 0; Num 0; Num 1] /\
  objectOf (C68_state [SGen (FromUser 0 0%Z)]) 0 = Some (FPtr 0).
Proof. split; [|split]; vm_compute; reflexivity. Qed.
(** A reference follows the settings of x and advances its state; it does not survive x. *)
Example C68_reference_ex :
  C68_out (runs (C68_q ++ [SRefer 0 []; SChain 0 [SetSize 1]; SUse 1; SUse 0]) C68_start) = Some [Seq [Num 0; Num 1; Num 2]; Seq [Num 3]; Seq [Num 4]] /\
  runs (C68_q ++ [SRefer 0 []; SDrop 0; SUse 1]) C68_start = UB /\
  runs (C68_q ++ [SRefer 0 [SetElem (FromUser 0 5%Z)]; SUse 1]) C68_start = UB /\
  C68_out (runs (C68_q ++ [SRefer 0 [SetMin 3]; SUse 1]) C68_start) = Some [Seq [Num 0; Num 1; Num 2]; Seq [Num 3; Num 4; Num 5]].
Proof. split; [|split; [|split]]; vm_compute; reflexivity. Qed.
(** auto x = ...; d = x.map(...); the end of d; d(rand).  auto&& z = x.setSize(2); the end of z: x is as before. *)
Example C68_lifetime_ex : (exists q q1 q3, runs C68_q C68_start = Ok q /\ execs 9 (SDerive 0 [] (DMap C68_tag)) q = Ok q1 /\ makesObject (SDerive 0 [] (DMap C68_tag) : stmt replay C68_val Z) /\
    length (vars q) = 1 /\ runs [SDrop 1; SChain 0 [SetSize 1]] q1 = Ok q3 /\ execs 9 (SUse 1) q3 = UB) /\
  C68_out (runs (C68_p ++ [SBind 0 [SetSize 2]; SDrop 1; SUse 0]) C68_start) = Some [Seq [Num 8; Num 0]] /\
  runs (C68_p ++ [SBind 0 [SetElem (FromUser 0 5%Z)]; SDrop 1; SUse 1]) C68_start = UB /\ runs [SFun (FromUser 0 5%Z); SDrop 0; SUse 0] C68_start = UB.
Proof.
  split; [|split; [|split]]; [|vm_compute; reflexivity..]. eexists _, _, _. split; [vm_compute; reflexivity|]. split; [vm_compute; reflexivity|]. split; [exact I|]. split; [reflexivity|].
  split; [vm_compute; reflexivity|]. vm_compute. reflexivity.
Qed.
(** forAll with x twice: the same inputs. *)
Example C68_repeat_ex : C68_out (runs (C68_q ++ [SForAll 0 ([7]%Z : rst replay) 2 false; SForAll 0 ([7]%Z : rst replay) 2 false]) C68_start) =
  Some [Seq [Num 0; Num 1; Num 2]; Seq [Num 3; Num 4; Num 5]; Seq [Num 6; Num 7; Num 8]; Seq [Num 3; Num 4; Num 5]; Seq [Num 6; Num 7; Num 8]].
Proof. vm_compute. reflexivity. Qed.
(** Not so for a Generator made from a callable with state: the second forAll goes on where the first one ended. *)
Theorem C68_repeat_generator_refuted : exists q r, reachable C68_user Seq C68_seq2 C68_lt q /\
  C68_out (runs [SForAll 0 r 2 false; SForAll 0 r 2 false] q) = Some [Num 0; Num 1; Num 2; Num 3].
Proof.
  exists (C68_state [SGen (FromUser 0 0%Z)]), ([7]%Z : rst replay). split; [|vm_compute; reflexivity].
  exists 9, [SGen (FromUser 0 0%Z)], ([3; 8; 0; 2; 77]%Z : rst replay), (C68_sz 1 4). reflexivity.
Qed.
(** With a callable that keeps state, the input shown as the counterexample need not be the one that failed: here the third one, 2, failed, and 3 is shown and
    shrunk, even though the generator is an object of its own. *)
Theorem C68_regenerated_refuted : exists q r, reachable C68_user Seq C68_seq2 C68_lt q /\
  C68_out (runs [SForAll 0 r 3 true] q) = Some [Num 0; Num 1; Num 2; Num 3].
Proof.
  exists (C68_state [SFun (FromUser 0 0%Z)]), ([7]%Z : rst replay). split; [|vm_compute; reflexivity].
  exists 9, [SFun (FromUser 0 0%Z)], ([3; 8; 0; 2; 77]%Z : rst replay), (C68_sz 1 4). reflexivity.
Qed.
Example C68_regenerated_ex : stateless C68_draws /\
  C68_out (run C68_draws Seq C68_seq2 C68_lt 9 (C68_p ++ [SForAll 0 ([2; 7; 8; 1; 5; 3]%Z : rst replay) 2 true]) C68_start) = Some [Seq [Num 7; Num 8]; Seq [Num 5]; Seq [Num 5]].
Proof.
  split; [|vm_compute; reflexivity]. intros c u r t u' r' H. unfold C68_draws in H. destruct (unif replay 0 9 r). inversion H; auto.
Qed.
(** The default sizes are read when the object is made. *)
Example C68_defaults_ex : C68_out (runs (C68_p ++ [SDefaults (C68_sz 0 0); SNew KVector (FromUser 1 0%Z) (FromUser 0 0%Z); SUse 0; SUse 1]) C68_start) =
  Some [Seq [Num 8; Num 0; Num 2]; Seq []].
Proof. vm_compute. reflexivity. Qed.

Print Assumptions C68_chain_named.
Print Assumptions C68_chain_value.
Print Assumptions C68_bind.
Print Assumptions C68_copy_apart.
Print Assumptions C68_derived_apart.
Print Assumptions C68_derived_sizes.
Print Assumptions C68_generator_copies_share.
Print Assumptions C68_reference_follows.
Print Assumptions C68_reference_temporary.
Print Assumptions C68_lifetime.
Print Assumptions C68_repeat.
Print Assumptions C68_regenerated.
Print Assumptions C68_defaults.
Print Assumptions C68_repeat_generator_refuted.
Print Assumptions C68_regenerated_refuted.
