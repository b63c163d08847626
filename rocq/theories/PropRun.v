(** Running properties: verdicts (C32), replay (C33), shrinking (C34, C35), expectations (C36), example (C38), run count, time limit and
    seed (C40), hooks (C41), explicit generators (C42). *)
From Coq Require Import String List ZArith Lia Bool Permutation.
From Verif Require Import Base TreeModel TreeSpec TreeProof RandomModel TupleModel TupleProof ContainerProof IntegralProof EffModel EffSpec EffProof
  ContextModel ContextSpec ContextProof RunnerModel RunnerSpec RunnerProof RunnerPureProof RunnerOnProof RunnerShrinkProof RunnerLogProof.
Import ListNotations.
Local Open Scope list_scope.

(** * A concrete set-up used by the examples *)

(** An engine replaying the given draws; a generator of integers 0..99 whose shrinks are the smaller halvings. *)
Fixpoint halves (n : nat) (z : Z) : tree Z :=
  match n with O => Node z [] | S m => Node z (if (z =? 0)%Z then [] else [Node 0%Z []; halves m (z / 2)%Z; halves m (z - 1)%Z]) end.
Definition anInt : xgen replay Z := gbind (draw 0 99) (fun z => gret (inl (elift (halves 7 z)))).
Definition clock0 : nat -> Z := fun _ => 0%Z.
Definition inOrder (n : nat) (draws : rst replay) : env replay :=
  {| ord_call := seq 0 n; ord_regen := seq 0 n; ord_shrinks := seq 0 n; ord_each := seq 0 n; seeded := fun _ => draws; elapsed := clock0 |}.
Definition prop1 (f : list Z -> list op * ures) (n runs : nat) : property replay Z unit :=
  {| func := fun a w => (fst (f a), snd (f a), w); gens := repeat anInt n; onStartup := None; onCleanup := None; numRuns := runs; maxDurationMs := 0; seed := 1 |}.
Lemma prop1_pure : forall f n runs, pure_property (prop1 f n runs) f.
Proof. intros. split; auto. Qed.
Lemma prop1_quiet : forall f n runs, quiet (gens (prop1 f n runs)).
Proof.
  intros. apply Forall_forall. intros g Hg. apply repeat_spec in Hg. subst. intros r e r' H. apply gbind_ok in H. destruct H as [x [r1 [_ H]]]. discriminate.
Qed.

(** Discards odd numbers, fails from 10 on, succeeds early at 4. *)
Definition f1 (a : list Z) : list op * ures :=
  match a with
  | [x] => if (x =? 4)%Z then ([], UThrow ESuccess) else if Z.odd x then ([], UThrow EDiscard) else ([OTag "t" 1 "even" "yes"], URet (x <? 10)%Z)
  | _ => ([], URet false)
  end%string.
Lemma f1_no_leak : no_leak f1.
Proof.
  intros a H. unfold f1 in *. destruct a as [|x [|y l]]; simpl in H; try congruence.
  destruct (x =? 4)%Z; simpl in H; try congruence. destruct (Z.odd x); simpl in H; congruence.
Qed.

(** * C32: the verdict *)

(** When forAll returns true (no time limit), the inputs drawn, in order, all pass or are discarded, exactly numRuns of them pass, the last one
    passes, and each of them was given to the property function exactly once and nothing else was; the summary printed
    accounts for what all of them (discarded ones included) recorded. *)
Theorem C32_true : forall E V W fuel ev (P : property E V W) beh w v s',
  pure_property P beh -> quiet (gens P) -> no_leak beh -> maxDurationMs P = 0%Z ->
  runForAll fuel ev P w = Ok (v, s') -> succeeded v = true ->
  exists l r', drawn ev P (seeded ev (seed P)) l r' /\ Forall (acceptable beh) l /\ length (filter (is_pass beh) l) = numRuns P /\
    ends_in (fun a => judge (beh a) = JPass) l /\ lg s' = calls beh l /\
    v = VPassed (printSummary (apply_ops (flat_map (fun a => fst (beh a)) l) newctx)).
Proof.
  intros E V W fuel ev P beh w v s' HP Hq Hl Ht H Hv. unfold runForAll in H. apply runLoop_ok in H. destruct v as [sm|k sm|t why rep]; [| |discriminate].
  - destruct H as [-> [ks [H [Hn [He _]]]]]. destruct (history_pure _ _ _ _ _ _ _ _ _ HP Hq Hl H eq_refl) as [_ [l [Hd [Hm [R1 [R2 R3]]]]]].
    exists l, (rnd s'). split; auto. simpl in R1, R3.
    assert (Hk : Forall2 (fun a k => (k = Passed /\ judge (beh a) = JPass) \/ (k = Discarded /\ judge (beh a) = JDiscard)) l ks).
    { clear -Hm. revert ks Hm. induction l as [|a l IH]; intros [|k ks] Hm; simpl in Hm; try discriminate; constructor; inversion Hm; auto. apply judge_kind. auto. }
    split; [clear -Hk; induction Hk; constructor; auto; unfold acceptable; intuition|]. split.
    + rewrite <- Hn. clear -Hk. unfold passes, is_pass. induction Hk as [|a k l ks Hc Hk IH]; auto. simpl. destruct Hc as [[-> Hc]|[-> Hc]]; rewrite Hc; simpl; congruence.
    + split; [|split; auto; rewrite R1; auto]. destruct He as [->|[ks' [k [-> ->]]]]; [inversion Hk; left; auto|].
      apply Forall2_app_inv_r in Hk. destruct Hk as [l1 [l2 [_ [Hk ->]]]]. inversion Hk as [|a k l3 ? Ha Hn3]; subst. inversion Hn3; subst.
      right. exists l1, a. split; auto. destruct Ha as [[_ Ha]|[Ha _]]; auto; discriminate.
  - destruct H as [_ [ks [_ [_ [_ [_ [_ Hx]]]]]]]. exfalso. apply Hx. left. auto.
Qed.

Example C32_true_ex :
  match runForAll 5 (inOrder 1 [3; 4; 2; 7; 9; 8]%Z) (prop1 f1 1 3) tt with
  | Ok (v, s) => succeeded v = true /\ args_of (lg s) = [[3]; [4]; [2]; [7]; [9]; [8]]%Z /\ v = VPassed [("even", 2%nat, [("yes", 2%nat)])]%string
  | _ => False end.
Proof. vm_compute. auto. Qed.

(** When it returns false, the inputs before the last one drawn all pass or are discarded, fewer than numRuns of them pass, and the last
    one fails for the reported reason; the reported number of tests counts the passes. *)
Theorem C32_false : forall E V W fuel ev (P : property E V W) beh w v s',
  pure_property P beh -> quiet (gens P) -> no_leak beh ->
  runForAll fuel ev P w = Ok (v, s') -> succeeded v = false ->
  exists l a r' why rep rest, drawn ev P (seeded ev (seed P)) (l ++ [a]) r' /\ Forall (acceptable beh) l /\ judge (beh a) = JFail why /\
    (length (filter (is_pass beh) l) < numRuns P)%nat /\ v = VFalsified (S (length (filter (is_pass beh) l))) why rep /\
    lg s' = calls beh (l ++ [a]) ++ rest.
Proof.
  intros E V W fuel ev P beh w v s' HP Hq Hl H Hv. unfold runForAll in H. apply runLoop_ok in H. destruct v as [sm|k sm|t why rep]; try discriminate.
  destruct H as [ks [s0 [s1 [H [Hf [Hn [-> [_ Hs]]]]]]]].
  destruct (history_pure _ _ _ _ _ _ _ _ _ HP Hq Hl H eq_refl) as [H0 [l [Hd [Hm [R1 [R2 R3]]]]]].
  destruct (falsifies_pure _ _ _ _ _ _ _ _ _ HP Hq Hf H0) as [ts [r1 [Ev [Hj [L _]]]]].
  assert (Hk : Forall2 (fun a k => (k = Passed /\ judge (beh a) = JPass) \/ (k = Discarded /\ judge (beh a) = JDiscard)) l ks).
  { clear -Hm. revert ks Hm. induction l as [|a l IH]; intros [|k ks] Hm; simpl in Hm; try discriminate; constructor; inversion Hm; auto. apply judge_kind. auto. }
  assert (Hp : passes ks = length (filter (is_pass beh) l)).
  { clear -Hk. unfold passes, is_pass. induction Hk as [|a k l ks Hc Hk IH]; auto. simpl. destruct Hc as [[-> Hc]|[-> Hc]]; rewrite Hc; simpl; congruence. }
  apply shrink_log in Hs. destruct Hs as [segs [Hs _]].
  exists l, (map eroot ts), r1, why, rep, (concat segs). split; [eapply drawn_app; eauto; eapply drawn_cons; eauto; constructor|].
  split; [clear -Hk; induction Hk; constructor; auto; unfold acceptable; intuition|]. split; auto. rewrite <- Hp. split; auto. split; auto.
  simpl in Hs. rewrite Hs, L, R3. unfold calls. simpl. rewrite map_app. auto.
Qed.

Example C32_false_ex :
  match runForAll 5 (inOrder 1 [3; 4; 2; 7; 14; 8]%Z) (prop1 f1 1 5) tt with
  | Ok (VFalsified t why rep, s) => t = 3%nat /\ why = RFalse /\ firstn 5 (args_of (lg s)) = [[3]; [4]; [2]; [7]; [14]]%Z
  | _ => False end.
Proof. vm_compute. auto. Qed.

(** Both for properties whose function depends on its arguments only on the inputs that can be drawn. *)
Theorem C32_true_on : forall E V W Q fuel ev (P : property E V W) beh w v s',
  pure_on Q P beh -> inputs_in Q ev P -> quiet (gens P) -> no_leak_on Q beh -> maxDurationMs P = 0%Z ->
  runForAll fuel ev P w = Ok (v, s') -> succeeded v = true ->
  exists l r', drawn ev P (seeded ev (seed P)) l r' /\ Forall (acceptable beh) l /\ length (filter (is_pass beh) l) = numRuns P /\
    ends_in (fun a => judge (beh a) = JPass) l /\ lg s' = calls beh l /\
    v = VPassed (printSummary (apply_ops (flat_map (fun a => fst (beh a)) l) newctx)).
Proof.
  intros E V W Q fuel ev P beh w v s' HP Hin Hq Hl Ht H Hv. unfold runForAll in H. apply runLoop_ok in H. destruct v as [sm|k sm|t why rep]; [| |discriminate].
  - destruct H as [-> [ks [H [Hn [He _]]]]]. destruct (history_pure_on _ _ _ _ _ _ _ _ _ _ HP Hin Hq Hl H eq_refl) as [_ [l [Hd [Hm [R1 [R2 R3]]]]]].
    exists l, (rnd s'). split; auto. simpl in R1, R3.
    assert (Hk : Forall2 (fun a k => (k = Passed /\ judge (beh a) = JPass) \/ (k = Discarded /\ judge (beh a) = JDiscard)) l ks).
    { clear -Hm. revert ks Hm. induction l as [|a l IH]; intros [|k ks] Hm; simpl in Hm; try discriminate; constructor; inversion Hm; auto. apply judge_kind. auto. }
    split; [clear -Hk; induction Hk; constructor; auto; unfold acceptable; intuition|]. split.
    + rewrite <- Hn. clear -Hk. unfold passes, is_pass. induction Hk as [|a k l ks Hc Hk IH]; auto. simpl. destruct Hc as [[-> Hc]|[-> Hc]]; rewrite Hc; simpl; congruence.
    + split; [|split; auto; rewrite R1; auto]. destruct He as [->|[ks' [k [-> ->]]]]; [inversion Hk; left; auto|].
      apply Forall2_app_inv_r in Hk. destruct Hk as [l1 [l2 [_ [Hk ->]]]]. inversion Hk as [|a k l3 ? Ha Hn3]; subst. inversion Hn3; subst.
      right. exists l1, a. split; auto. destruct Ha as [[_ Ha]|[Ha _]]; auto; discriminate.
  - destruct H as [_ [ks [_ [_ [_ [_ [_ Hx]]]]]]]. exfalso. apply Hx. left. auto.
Qed.
Theorem C32_false_on : forall E V W Q fuel ev (P : property E V W) beh w v s',
  pure_on Q P beh -> inputs_in Q ev P -> quiet (gens P) -> no_leak_on Q beh ->
  runForAll fuel ev P w = Ok (v, s') -> succeeded v = false ->
  exists l a r' why rep rest, drawn ev P (seeded ev (seed P)) (l ++ [a]) r' /\ Forall (acceptable beh) l /\ judge (beh a) = JFail why /\
    (length (filter (is_pass beh) l) < numRuns P)%nat /\ v = VFalsified (S (length (filter (is_pass beh) l))) why rep /\
    lg s' = calls beh (l ++ [a]) ++ rest.
Proof.
  intros E V W Q fuel ev P beh w v s' HP Hin Hq Hl H Hv. unfold runForAll in H. apply runLoop_ok in H. destruct v as [sm|k sm|t why rep]; try discriminate.
  destruct H as [ks [s0 [s1 [H [Hf [Hn [-> [_ Hs]]]]]]]].
  destruct (history_pure_on _ _ _ _ _ _ _ _ _ _ HP Hin Hq Hl H eq_refl) as [H0 [l [Hd [Hm [R1 [R2 R3]]]]]].
  destruct (falsifies_pure_on _ _ _ _ _ _ _ _ _ _ HP Hin Hq Hf H0) as [ts [r1 [Ev [Hj [L _]]]]].
  assert (Hk : Forall2 (fun a k => (k = Passed /\ judge (beh a) = JPass) \/ (k = Discarded /\ judge (beh a) = JDiscard)) l ks).
  { clear -Hm. revert ks Hm. induction l as [|a l IH]; intros [|k ks] Hm; simpl in Hm; try discriminate; constructor; inversion Hm; auto. apply judge_kind. auto. }
  assert (Hp : passes ks = length (filter (is_pass beh) l)).
  { clear -Hk. unfold passes, is_pass. induction Hk as [|a k l ks Hc Hk IH]; auto. simpl. destruct Hc as [[-> Hc]|[-> Hc]]; rewrite Hc; simpl; congruence. }
  apply shrink_log in Hs. destruct Hs as [segs [Hs _]].
  exists l, (map eroot ts), r1, why, rep, (concat segs). split; [eapply drawn_app; eauto; eapply drawn_cons; eauto; constructor|].
  split; [clear -Hk; induction Hk; constructor; auto; unfold acceptable; intuition|]. split; auto. rewrite <- Hp. split; auto. split; auto.
  simpl in Hs. rewrite Hs, L, R3. unfold calls. simpl. rewrite map_app. auto.
Qed.
(** Reads the world on inputs above 99, which are never drawn. *)
Definition sneaky (runs : nat) : property replay Z bool :=
  {| func := fun a w => if forallb (fun x => x <? 100)%Z a then (fst (f1 a), snd (f1 a), w) else ([], URet w, negb w);
     gens := [anInt]; onStartup := None; onCleanup := None; numRuns := runs; maxDurationMs := 0; seed := 1 |}.
Example C32_on_ex : pure_on (fun a => forallb (fun x => x <? 100)%Z a = true) (sneaky 3) f1 /\ inputs_in (fun a => forallb (fun x => x <? 100)%Z a = true) (inOrder 1 []) (sneaky 3) /\
  match runForAll 5 (inOrder 1 [3; 4; 2; 8]%Z) (sneaky 3) true with Ok (v, s) => succeeded v = true /\ args_of (lg s) = [[3]; [4]; [2]; [8]]%Z | _ => False end.
Proof.
  split; [split; [intros a w H; cbn [func sneaky]; rewrite H; reflexivity|auto]|]. split; [|vm_compute; auto].
  intros r ts r1 H. apply evalTuple_ok in H. destruct H as [L N]. destruct ts as [|t [|]]; try discriminate.
  destruct (N 0%nat t eq_refl) as (f & r0 & r2 & Hf & Hr). inversion Hf; subst f. unfold anInt in Hr. apply gbind_ok in Hr. destruct Hr as (z & r3 & Hd & Hz).
  assert (Ht : t = elift (halves 7 z)) by (unfold gret in Hz; congruence). rewrite Ht. unfold map, forallb. rewrite elift_root. destruct (draw_ok replay 0 99 r0) as (n & r4 & Hn & Hb); [lia|].
  rewrite Hn in Hd. inversion Hd; subst n. replace (root (halves 7 z)) with z by (destruct z; reflexivity). rewrite andb_true_r. apply Z.ltb_lt. lia.
Qed.

(** Conversely, if such inputs are drawn, forAll does return true, whatever the fuel beyond their number ... *)
Theorem C32_true_back : forall E V W ev (P : property E V W) beh w l r',
  pure_property P beh -> no_leak beh -> maxDurationMs P = 0%Z ->
  drawn ev P (seeded ev (seed P)) l r' -> Forall (acceptable beh) l -> length (filter (is_pass beh) l) = numRuns P ->
  ends_in (fun a => judge (beh a) = JPass) l ->
  forall fuel, (length l < fuel)%nat -> exists v s', runForAll fuel ev P w = Ok (v, s') /\ succeeded v = true.
Proof.
  intros E V W ev P beh w l r' HP Hl Ht Hd Ha Hn He fuel Hf.
  set (ks := map (fun a => if is_pass beh a then Passed else Discarded) l).
  assert (Hm : map (fun a => kind_of (judge (beh a))) l = map Some ks).
  { unfold ks. rewrite map_map. apply map_ext_in. intros a Hin. rewrite Forall_forall in Ha. unfold is_pass. destruct (Ha a Hin) as [->| ->]; auto. }
  destruct (history_pure_back _ _ _ _ _ _ HP Hl _ _ _ _ Hd Hm {| rnd := seeded ev (seed P); cx := newctx; wd := w; lg := [] |} eq_refl eq_refl) as [s' [H _]].
  exists (VPassed (printSummary (cx s'))), s'. split; auto. unfold runForAll. eapply runLoop_passed; eauto.
  - rewrite <- Hn. unfold ks, passes. clear. induction l as [|a l IH]; auto. simpl. destruct (is_pass beh a); simpl; congruence.
  - destruct He as [->|[l' [a [-> Hj]]]]; [left; auto|]. right. unfold ks. rewrite map_app. simpl.
    exists (map (fun a => if is_pass beh a then Passed else Discarded) l'), Passed. unfold is_pass at 2. rewrite Hj. auto.
  - intros. left. auto.
  - unfold ks. rewrite map_length. auto.
Qed.

Example C32_true_back_ex : forall w, exists v s', runForAll 3 (inOrder 1 [5; 6]%Z) (prop1 f1 1 1) w = Ok (v, s') /\ succeeded v = true.
Proof.
  intros w. eapply (C32_true_back replay _ _ _ _ f1 w [[5]; [6]]%Z []); auto using prop1_pure, f1_no_leak.
  - eapply drawn_cons with (ts := [elift (halves 7 5)]); [reflexivity|]. eapply drawn_cons with (ts := [elift (halves 7 6)]); [reflexivity|]. constructor.
  - constructor; [right; reflexivity|]. constructor; [left; reflexivity|]. constructor.
  - right. exists [[5]]%Z, [6]%Z. auto.
Qed.

(** ... and if a failing input is drawn after acceptable ones, it returns false at that input. *)
Theorem C32_false_back : forall E V W ev (P : property E V W) beh w l a r' why,
  pure_property P beh -> no_leak beh -> maxDurationMs P = 0%Z -> tame P ->
  (forall r, exists ts r1, evalTuple (ord_regen ev) (gens P) r = Ok (inl ts, r1) /\ Forall etotal ts) ->
  order (length (gens P)) (ord_shrinks ev) -> order (length (gens P)) (ord_each ev) ->
  drawn ev P (seeded ev (seed P)) (l ++ [a]) r' -> Forall (acceptable beh) l -> (length (filter (is_pass beh) l) < numRuns P)%nat ->
  judge (beh a) = JFail why ->
  forall fuel, (length l < fuel)%nat ->
  exists rep s', runForAll fuel ev P w = Ok (VFalsified (S (length (filter (is_pass beh) l))) why rep, s').
Proof.
  intros E V W ev P beh w l a r' why HP Hl Ht Htame Hreg Ho1 Ho2 Hd Ha Hn Hj fuel Hf.
  set (ks := map (fun a => if is_pass beh a then Passed else Discarded) l).
  assert (Hm : map (fun a => kind_of (judge (beh a))) l = map Some ks).
  { unfold ks. rewrite map_map. apply map_ext_in. intros x Hin. rewrite Forall_forall in Ha. unfold is_pass. destruct (Ha x Hin) as [->| ->]; auto. }
  assert (Hp : passes ks = length (filter (is_pass beh) l)).
  { unfold ks, passes. clear. induction l as [|x l IH]; auto. simpl. destruct (is_pass beh x); simpl; congruence. }
  apply drawn_split in Hd. destruct Hd as [r1 [Hd1 Hd2]].
  destruct (history_pure_back _ _ _ _ _ _ HP Hl _ _ _ _ Hd1 Hm {| rnd := seeded ev (seed P); cx := newctx; wd := w; lg := [] |} eq_refl eq_refl) as [s0 [H [Hr [H0 _]]]].
  inversion Hd2 as [|? ts r2 l2 ? Ev Hd3]; subst. 
  destruct (falsifies_pure_back _ _ _ _ _ _ s0 _ _ _ HP Ev Hj H0) as [s1 [Hfa _]].
  destruct (Hreg (rnd s0)) as [ts' [r3 [Er Et]]].
  destruct (shrink_terminates _ _ _ ev P (with_rnd (rnd s0) s1) ts' r3 Htame Er Et Ho1 Ho2) as [rep [s2 Hs]].
  exists rep, s2. unfold runForAll. rewrite <- Hp. change (S (passes ks)) with (S (0 + passes ks)). eapply runLoop_falsified; eauto.
  - lia.
  - intros. left. auto.
  - unfold ks. rewrite map_length. auto.
Qed.

Lemma anInt_ok : forall r, exists ts r1, evalTuple (E := replay) (seq 0 1) [anInt] r = Ok (inl ts, r1) /\ Forall etotal ts.
Proof.
  intros r. destruct (anInt r) as [[x r1]| | |] eqn:Ex; try (unfold anInt, gbind, draw in Ex; simpl in Ex; destruct r as [|z r]; simpl in Ex; discriminate).
  unfold anInt in Ex. apply gbind_ok in Ex. destruct Ex as [z [r2 [E1 E2]]]. inversion E2; subst.
  exists [elift (halves 7 z)], r1. split; [|repeat constructor; apply elift_total].
  unfold evalTuple. simpl. unfold gbind at 1. unfold gbind at 1. unfold anInt at 1. unfold gbind at 1. rewrite E1. auto.
Qed.

Example C32_false_back_ex : forall w, exists rep s', runForAll 3 (inOrder 1 [4; 5; 12]%Z) (prop1 f1 1 2) w = Ok (VFalsified 2 RFalse rep, s').
Proof.
  intros w. eapply (C32_false_back replay _ _ _ (prop1 f1 1 2) f1 w [[4]; [5]]%Z [12]%Z []); auto using prop1_pure, f1_no_leak.
  - split; [|split; intros ? ?; discriminate]. intros a u. simpl. unfold f1. destruct a as [|x [|y a]]; try discriminate.
    destruct (x =? 4)%Z; try discriminate. destruct (Z.odd x); discriminate.
  - apply anInt_ok.
  - apply Permutation_refl.
  - apply Permutation_refl.
  - eapply drawn_cons with (ts := [elift (halves 7 4)]); [reflexivity|]. eapply drawn_cons with (ts := [elift (halves 7 5)]); [reflexivity|].
    eapply drawn_cons with (ts := [elift (halves 7 12)]); [reflexivity|]. constructor.
  - constructor; [left; reflexivity|]. constructor; [right; reflexivity|]. constructor.
Qed.

(** For any property function and hooks, keeping state between runs: true means a history of attempts in which exactly numRuns pass (return true with
    no expectation failed, or signal success) and the others discard; false means such a history followed by a falsifying attempt. *)
Theorem C32_general : forall E V W fuel ev (P : property E V W) w v s', runForAll fuel ev P w = Ok (v, s') ->
  let s := {| rnd := seeded ev (seed P); cx := newctx; wd := w; lg := [] |} in
  match v with
  | VPassed _ => exists ks, history ev P s ks s' /\ passes ks = numRuns P /\ ends_in (fun k => k = Passed) ks
  | VTimedOut k _ => exists ks, history ev P s ks s' /\ passes ks = k /\ (k < numRuns P)%nat
  | VFalsified t why rep => exists ks s0 s1, history ev P s ks s0 /\ falsifies ev P s0 why s1 /\ t = S (passes ks) /\ (passes ks < numRuns P)%nat
  end.
Proof.
  intros E V W fuel ev P w v s' H. apply runLoop_ok in H. destruct v as [sm|k sm|t why rep]; simpl.
  - destruct H as [_ [ks [H1 [H2 [H3 _]]]]]. exists ks. auto.
  - destruct H as [_ [ks [H1 [H2 [H3 [H4 _]]]]]]. exists ks. simpl in H4. subst. auto.
  - destruct H as [ks [s0 [s1 [H1 [H2 [H3 [H4 _]]]]]]]. exists ks, s0, s1. auto.
Qed.

(** A property counting its own calls and failing from the third on. *)
Definition counting : property replay Z nat :=
  {| func := fun a n => ([], URet (n <? 2)%nat, S n); gens := [anInt]; onStartup := None; onCleanup := None; numRuns := 10; maxDurationMs := 0; seed := 1 |}.
Example C32_general_ex : match runForAll 5 (inOrder 1 [1; 2; 0; 7]%Z) counting 0%nat with Ok (VFalsified t RFalse _, _) => t = 3%nat | _ => False end.
Proof. vm_compute. auto. Qed.

(** What is thrown and is not a std::exception is caught by no clause: after any history of acceptable attempts with fewer passes than numRuns, forAll
    itself ends with it, and nothing is reported. *)
Theorem C32_nonstd : forall E V W ev (P : property E V W) w ks s0 s1,
  history ev P {| rnd := seeded ev (seed P); cx := newctx; wd := w; lg := [] |} ks s0 -> (passes ks < numRuns P)%nat -> maxDurationMs P = 0%Z ->
  attempt ev P s0 = Ok (AThrew ENonStd, s1) ->
  forall fuel, (length ks < fuel)%nat -> runForAll fuel ev P w = Throw ENonStd.
Proof.
  intros E V W ev P w ks s0 s1 H Hp Ht Hx fuel Hf. unfold runForAll. eapply runLoop_nonstd; eauto. intros. left. auto.
Qed.

(** A property counting its own calls: it discards, passes, and throws an int. *)
Definition throwing : property replay Z nat :=
  {| func := fun a n => ([], match n with O => UThrow EDiscard | 1%nat => URet true | _ => UThrow ENonStd end, S n); gens := [anInt]; onStartup := None; onCleanup := None;
     numRuns := 10; maxDurationMs := 0; seed := 1 |}.
Example C32_nonstd_ex : runForAll 5 (inOrder 1 [1; 2; 0; 7]%Z) throwing 0%nat = Throw ENonStd.
Proof.
  eapply C32_nonstd with (ks := [Discarded; Passed]).
  - eapply h_discard; [reflexivity|]. eapply h_true; [reflexivity|reflexivity|]. constructor.
  - simpl. unfold passes. simpl. lia.
  - reflexivity.
  - reflexivity.
  - simpl. lia.
Qed.

(** * C33: the arguments handed to shrinking *)

(** With the same order of evaluation, regenerating from the saved state gives exactly the arguments the property was called with in the attempt that
    failed -- for any property, hooks, generators and arity -- unless that attempt threw before the property was called. *)
Theorem C33_replay : forall E V W fuel ev (P : property E V W) w t why rep s', ord_regen ev = ord_call ev ->
  runForAll fuel ev P w = Ok (VFalsified t why rep, s') ->
  exists ks s0 s1 seg, history ev P {| rnd := seeded ev (seed P); cx := newctx; wd := w; lg := [] |} ks s0 /\ falsifies ev P s0 why s1 /\
    lg s1 = lg s0 ++ seg /\ (exists rest, lg s' = lg s1 ++ rest) /\
    (args_of seg = [with_args rep] \/ (args_of seg = [] /\ exists e, why = RException e)).
Proof.
  intros E V W fuel ev P w t why rep s' Ho H. apply runLoop_ok in H. destruct H as [ks [s0 [s1 [H1 [H2 [_ [_ [_ Hs]]]]]]]].
  destruct (falsifies_attempt _ _ _ _ _ _ _ _ H2) as [o [s2 [Ha [L _]]]].
  destruct (attempt_log _ _ _ _ _ _ _ _ Ha) as [seg [L2 [C _]]].
  destruct (shrink_log _ _ _ _ _ _ _ _ Hs) as [segs [L4 _]].
  exists ks, s0, s1, seg. split; auto. split; auto. split; [congruence|]. split; [exists (concat segs); rewrite L4; auto|].
  apply shrink_inv in Hs. destruct Hs as [ts [r1 [_ [_ [_ [Hr [_ [_ [Hw _]]]]]]]]]. simpl in Hr. rewrite Ho in Hr. rewrite Hw.
  assert (Hwhy : forall e, o = AThrew e -> exists e, why = RException e).
  { intros e ->. inversion H2; subst; try congruence. eauto. }
  unfold pre, post in C. destruct C as [[e [Eo [-> _]]]|[[e [r2 [Eo [-> _]]]]|[ts2 [r2 [Hx C]]]]].
  - right. split; eauto.
  - right. split; eauto. unfold pre. destruct (has (onStartup P)); auto.
  - left. rewrite Hr in Hx. inversion Hx; subst ts2. unfold pre, post in C.
    destruct C as [[e [-> _]]|[b [-> _]]]; destruct (has (onStartup P)); try destruct (has (onCleanup P)); auto.
Qed.

(** So the arguments reported as falsifying really fail, for the reported reason. *)
Theorem C33_replay_fails : forall E V W fuel ev (P : property E V W) beh w t why rep s',
  pure_property P beh -> quiet (gens P) -> no_leak beh -> ord_regen ev = ord_call ev ->
  runForAll fuel ev P w = Ok (VFalsified t why rep, s') -> judge (beh (with_args rep)) = JFail why.
Proof.
  intros E V W fuel ev P beh w t why rep s' HP Hq Hl Ho H.
  apply runLoop_ok in H. destruct H as [ks [s0 [s1 [Hh [Hf [_ [_ [_ Hs]]]]]]]].
  destruct (history_pure _ _ _ _ _ _ _ _ _ HP Hq Hl Hh eq_refl) as [H0 _].
  destruct (falsifies_pure _ _ _ _ _ _ _ _ _ HP Hq Hf H0) as [ts [r1 [Ev [Hj _]]]].
  apply shrink_inv in Hs. destruct Hs as [ts2 [r2 [_ [_ [_ [Hr [_ [_ [Hw _]]]]]]]]]. simpl in Hr. rewrite Ho, Ev in Hr. inversion Hr; subst. rewrite Hw. auto.
Qed.

(** With one argument there is only one order, so replay is always exact. *)
Theorem C33_replay_one_argument : forall E V W fuel ev (P : property E V W) beh w t why rep s',
  pure_property P beh -> quiet (gens P) -> no_leak beh -> length (gens P) = 1%nat -> order 1 (ord_call ev) -> order 1 (ord_regen ev) ->
  runForAll fuel ev P w = Ok (VFalsified t why rep, s') -> judge (beh (with_args rep)) = JFail why.
Proof.
  intros E V W fuel ev P beh w t why rep s' HP Hq Hl H1 Ho1 Ho2 H.
  assert (Hone : forall o, order 1 o -> o = [0%nat]) by (intros o Hx; apply Permutation_sym in Hx; apply Permutation_length_1_inv in Hx; auto).
  eapply C33_replay_fails; eauto. rewrite (Hone _ Ho1), (Hone _ Ho2). auto.
Qed.

Definition f2 (a : list Z) : list op * ures := match a with [x; y] => ([], URet (x <=? y)%Z) | _ => ([], URet false) end.
Example C33_replay_ex : match runForAll 5 (inOrder 2 [1; 2; 30; 20; 5]%Z) (prop1 f2 2 5) tt with
  | Ok (VFalsified t why rep, s) => t = 2%nat /\ with_args rep = [30; 20]%Z /\ In (ECall [30; 20]%Z (URet false)) (lg s) | _ => False end.
Proof. vm_compute. auto. Qed.
Example C33_replay_fails_ex : pure_property (prop1 f2 2 5) f2 /\ quiet (gens (prop1 f2 2 5)) /\ no_leak f2 /\ judge (f2 [30; 20]%Z) = JFail RFalse.
Proof. split; [apply prop1_pure|]. split; [apply prop1_quiet|]. split; [|auto]. intros [|x [|y [|z a]]] H; exfalso; apply H; reflexivity. Qed.
Example C33_replay_one_argument_ex : match runForAll 5 (inOrder 1 [1; 2; 32]%Z) (prop1 f1 1 5) tt with
  | Ok (VFalsified t why rep, s) => t = 2%nat /\ with_args rep = [32]%Z | _ => False end.
Proof. vm_compute. auto. Qed.

(** With two arguments the two calls may evaluate their generators in different orders (the language allows it): then the "failing" arguments
    reported and shrunk had not been tried, and need not fail. *)
Theorem C33_replay_refuted : exists ev (P : property replay Z unit) beh t why rep s',
  order 2 (ord_call ev) /\ order 2 (ord_regen ev) /\ pure_property P beh /\ quiet (gens P) /\ no_leak beh /\
  runForAll 5 ev P tt = Ok (VFalsified t why rep, s') /\ judge (beh (with_args rep)) = JPass /\
  (forall u, ~ In (ECall (with_args rep) u) (firstn 1 (lg s'))).
Proof.
  exists {| ord_call := [0; 1]%nat; ord_regen := [1; 0]%nat; ord_shrinks := [0; 1]%nat; ord_each := [0; 1]%nat; seeded := fun _ => ([30; 20]%Z : rst replay); elapsed := clock0 |},
    (prop1 f2 2 5), f2.
  eexists _, _, _, _. split; [apply Permutation_refl|]. split; [apply perm_swap|]. split; [apply prop1_pure|]. split; [apply prop1_quiet|].
  split. { intros a H. exfalso. apply H. unfold f2. destruct a as [|x [|y [|z a]]]; auto. }
  split; [vm_compute; reflexivity|]. split; [reflexivity|]. intros u [H|[]]. discriminate.
Qed.

(** * C34: what shrinking reports *)

(** Shrinking ends on every tuple of finite shrink trees, for every property (stateful, with hooks) that throws only standard exceptions. *)
Theorem C34_terminates : forall E V W ev (P : property E V W) s ts r1, tame P ->
  evalTuple (ord_regen ev) (gens P) (rnd s) = Ok (inl ts, r1) -> Forall etotal ts ->
  order (length (gens P)) (ord_shrinks ev) -> order (length (gens P)) (ord_each ev) ->
  exists rep s', shrink ev P s = Ok (rep, s').
Proof. exact shrink_terminates. Qed.

Definition start (r : rst replay) : rs replay Z unit := {| rnd := r; cx := newctx; wd := tt; lg := [] |}.
Example C34_terminates_ex : match shrink (inOrder 2 []) (prop1 f2 2 5) (start [23; 20]%Z) with
  | Ok (rep, _) => with_args rep = [23; 20]%Z /\ simplest_args rep = [21; 0]%Z | _ => False end.
Proof. vm_compute. auto. Qed.

(** The reported tuple: each argument is reached from the regenerated one by shrink steps; either nothing was shrunk or the reported tuple itself
    failed on re-test; and each argument is minimal: when it was shrunk, none of the shrinks offered for the final value failed, with the arguments
    shrunk before it at their final values and those shrunk after it at their initial values. *)
Theorem C34_result : forall E V W ev (P : property E V W) beh s rep s', pure_property P beh -> order (length (gens P)) (ord_each ev) ->
  shrink ev P s = Ok (rep, s') ->
  exists ini fin : list (etree E V), with_args rep = map eroot ini /\ simplest_args rep = map eroot fin /\ Forall2 ereach ini fin /\
    (fin = ini \/ bad beh (simplest_args rep)) /\
    (forall o1 N o2, ord_each ev = o1 ++ N :: o2 -> exists t, nth_error fin N = Some t /\ minimal_at beh N (map eroot (partly o1 fin ini)) t).
Proof.
  intros E V W ev P beh s rep s' HP Ho H. apply shrink_inv in H. destruct H as [ts [r1 [streams [r2 [ts' [H1 [H2 [H3 [H4 H5]]]]]]]]].
  exists ts, ts'. split; auto. split; auto. assert (Hlen : length ts = length (gens P)) by (eapply evalTuple_length; eauto).
  destruct (streams_linked _ _ _ _ _ _ _ H2) as [_ Hl].
  destruct (shrinkEach_pure _ _ _ _ _ HP _ _ _ _ _ _ H3 (order_nodup _ _ Ho)) as [I1 [_ [I3 [_ [I5 I6]]]]].
  { intros N HN. apply Hl. apply (order_in _ _ Ho) in HN. lia. }
  split; [|rewrite H5; auto].
  assert (Hnth : forall N t, nth_error ts N = Some t -> exists t', nth_error ts' N = Some t' /\ ereach t t').
  { intros N t Hn. pose proof (nth_error_lt _ _ _ _ Hn) as Hlt. destruct (I5 N) as [a [b [A [B C]]]]; [apply (order_in _ _ Ho); lia|]. exists b. split; auto. congruence. }
  clear -I1 Hnth. revert ts' I1 Hnth. induction ts as [|t ts IH]; intros [|t' ts'] I1 Hnth; simpl in I1; try discriminate; constructor.
  - destruct (Hnth 0%nat t eq_refl) as [u [A B]]. simpl in A. congruence.
  - apply IH; [lia|]. intros N u Hn. apply (Hnth (S N)). auto.
Qed.

(** For shrinks that do not use the engine, and arguments shrunk from left to right: local minimality in plain terms. *)
Theorem C34_minimal : forall E V W ev (P : property E V W) beh s rep s' pts r1, pure_property P beh ->
  ord_each ev = seq 0 (length (gens P)) -> evalTuple (ord_regen ev) (gens P) (rnd s) = Ok (inl (map elift pts), r1) ->
  shrink ev P s = Ok (rep, s') ->
  exists fin, Forall2 reach pts fin /\ simplest_args rep = map root fin /\ (map root fin = map root pts \/ bad beh (map root fin)) /\
    forall N t c, nth_error fin N = Some t -> In c (shrinks t) ->
      ~ bad beh (set_nth N (root c) (map root (firstn N fin ++ skipn N pts))).
Proof.
  intros E V W ev P beh s rep s' pts r1 HP Ho Hr H.
  assert (Hord : order (length (gens P)) (ord_each ev)) by (rewrite Ho; apply Permutation_refl).
  pose proof (shrink_inv _ _ _ _ _ _ _ _ H) as [ts [r2 [streams [r3 [ts' [H1 [H2 [H3 [H4 H5]]]]]]]]].
  assert (Hts : ts = map elift pts) by congruence. subst ts.
  assert (Hlen : length pts = length (gens P)) by (apply evalTuple_length in Hr; rewrite map_length in Hr; auto).
  destruct (streams_linked _ _ _ _ _ _ _ H2) as [_ Hl]. rewrite map_length in Hl.
  destruct (shrinkEach_pure _ _ _ _ _ HP _ _ _ _ _ _ H3 (order_nodup _ _ Hord)) as [I1 [_ [I3 [_ [I5 I6]]]]].
  { intros N HN. apply Hl. apply (order_in _ _ Hord) in HN. lia. }
  rewrite map_length in I1.
  assert (Hf : exists fin, Forall2 reach pts fin /\ ts' = map elift fin).
  { assert (Hnth : forall N t, nth_error pts N = Some t -> exists t', nth_error ts' N = Some (elift t') /\ reach t t').
    { intros N t Hn. pose proof (nth_error_lt _ _ _ _ Hn) as Hlt. destruct (I5 N) as [a [b [A [B C]]]]; [apply (order_in _ _ Hord); lia|].
      rewrite nth_error_map, Hn in A. simpl in A. inversion A; subst a. destruct (elift_reach _ _ _ _ C _ eq_refl) as [u [U1 ->]]. eauto. }
    clear -I1 Hnth. revert ts' I1 Hnth. induction pts as [|t pts IH]; intros [|t' ts'] I1 Hnth; simpl in I1; try discriminate.
    - exists []. split; constructor.
    - destruct (Hnth 0%nat t eq_refl) as [u [A B]]. simpl in A. inversion A; subst t'.
      destruct (IH ts') as [fin [F1 ->]]; [lia|intros N x Hn; apply (Hnth (S N)); auto|]. exists (u :: fin). split; auto. }
  destruct Hf as [fin [F1 ->]]. exists fin. split; auto.
  assert (Hroots : forall l : list (tree V), map eroot (map (elift (E := E)) l) = map root l) by (intros; rewrite map_map; apply map_ext; intros; apply elift_root).
  rewrite Hroots in *. split; auto. split.
  { destruct I3 as [I3|I3]; auto. left. rewrite <- (Hroots fin), I3. apply Hroots. }
  intros N t c Hn Hin. pose proof (nth_error_lt _ _ _ _ Hn) as Hlt. rewrite map_length in I1.
  destruct (I6 (seq 0 N) N (seq (S N) (length (gens P) - S N))) as [u [U1 U2]].
  { rewrite Ho. replace (length (gens P)) with (N + S (length (gens P) - S N))%nat at 1 by lia. rewrite seq_app. reflexivity. }
  rewrite nth_error_map, Hn in U1. simpl in U1. inversion U1; subst u.
  pose proof (minimal_lift _ _ _ _ _ _ U2 c Hin) as M. intros Hb. apply M. replace (map eroot _) with (map root (firstn N fin ++ skipn N pts)); auto.
  rewrite firstn_skipn_partly by (rewrite !map_length; lia). rewrite firstn_map, skipn_map, <- map_app. symmetry. apply Hroots.
Qed.

(** The property function is then called at most as often as there are shrinks of the arguments regenerated, at any depth. *)
Theorem C34_bounded : forall E V W ev (P : property E V W) s rep s' pts r1,
  order (length (gens P)) (ord_shrinks ev) -> order (length (gens P)) (ord_each ev) ->
  evalTuple (ord_regen ev) (gens P) (rnd s) = Ok (inl (map elift pts), r1) -> shrink ev P s = Ok (rep, s') ->
  (ncalls (lg s') <= ncalls (lg s) + list_sum (map (fun t => tsizes (shrinks t)) pts))%nat.
Proof.
  intros E V W ev P s rep s' pts r1 Ho1 Ho2 Hr H.
  apply shrink_inv in H. destruct H as [ts [r2 [streams [r3 [ts' [H1 [H2 [H3 _]]]]]]]].
  assert (Hts : ts = map elift pts) by congruence. subst ts.
  assert (Hlen : length pts = length (gens P)) by (apply evalTuple_length in Hr; rewrite map_length in Hr; auto).
  apply (shrinkEach_calls _ _ _ _ pts) in H3.
  - eapply Nat.le_trans; [exact H3|]. simpl. apply Nat.add_le_mono_l. rewrite (list_sum_perm _ _ (Permutation_map _ Ho2)), <- Hlen.
    rewrite sum_positions with (f := fun t => tsizes (shrinks t)). auto.
  - apply evalTuple_ok in H2. destruct H2 as [L R]. rewrite !map_length in L. apply nth_error_ext. intros i. rewrite nth_error_map.
    destruct (nth_error streams i) as [st|] eqn:Es.
    + destruct (R _ _ Es) as [f [q [q' [A B]]]]. rewrite !nth_error_map in A. destruct (nth_error pts i) as [t|]; [|discriminate].
      simpl in *. inversion A; subst f. rewrite elift_eq in B. inversion B. auto.
    + apply nth_error_None in Es. assert (Hn : nth_error pts i = None) by (apply nth_error_None; lia). rewrite Hn. auto.
Qed.

(** The regenerated [23; 20] fails [f2]; the reported [21; 0] fails too, and putting 0, 10 or 20 in place of 21 does not fail. *)
Example C34_result_ex : exists rep s', shrink (inOrder 2 []) (prop1 f2 2 5) (start [23; 20]%Z) = Ok (rep, s') /\
  with_args rep = [23; 20]%Z /\ simplest_args rep = [21; 0]%Z /\ args_of (lg s') = [[0; 20]; [11; 20]; [22; 20]; [0; 20]; [11; 20]; [21; 20]; [0; 20]; [10; 20]; [20; 20]; [21; 0]]%Z.
Proof. apply ok_witness. vm_compute. auto. Qed.
Example C34_minimal_ex : pure_property (prop1 f2 2 5) f2 /\ ord_each (inOrder 2 []) = seq 0 (length (gens (prop1 f2 2 5))) /\
  evalTuple (ord_regen (inOrder 2 [])) (gens (prop1 f2 2 5)) (rnd (start [23; 20]%Z)) = Ok (inl (map elift [halves 7 23%Z; halves 7 20%Z]), []) /\
  bad f2 [23; 20]%Z /\ map root (shrinks (halves 5 21%Z)) = [0; 10; 20]%Z /\ ~ bad f2 [20; 20]%Z.
Proof.
  split; [apply prop1_pure|]. split; [reflexivity|]. split; [reflexivity|]. split; [left; discriminate|]. split; [reflexivity|].
  intros [H|H]; apply H; reflexivity.
Qed.
Example C34_bounded_ex : order (length (gens (prop1 f2 2 5))) (ord_shrinks (inOrder 2 [])) /\ order (length (gens (prop1 f2 2 5))) (ord_each (inOrder 2 [])) /\
  (10 <= list_sum (map (fun t => tsizes (shrinks t)) [halves 7 23%Z; halves 7 20%Z]))%nat.
Proof. split; [apply Permutation_refl|]. split; [apply Permutation_refl|]. vm_compute. repeat constructor. Qed.

(** Then the tuple reported as simplest still fails. *)
Theorem C34_still_fails : forall E V W fuel ev (P : property E V W) beh w t why rep s',
  pure_property P beh -> quiet (gens P) -> no_leak beh -> ord_regen ev = ord_call ev -> order (length (gens P)) (ord_each ev) ->
  runForAll fuel ev P w = Ok (VFalsified t why rep, s') -> bad beh (simplest_args rep).
Proof.
  intros E V W fuel ev P beh w t why rep s' HP Hq Hl Ho Hoe H.
  pose proof (C33_replay_fails _ _ _ _ _ _ _ _ _ _ _ _ HP Hq Hl Ho H) as Hj.
  apply runLoop_ok in H. destruct H as [ks [s0 [s1 [_ [_ [_ [_ [_ Hs]]]]]]]].
  destruct (C34_result _ _ _ _ _ _ _ _ _ HP Hoe Hs) as [ini [fin [A [B [_ [[C|C] _]]]]]]; auto. subst. rewrite B, <- A.
  unfold judge, bad in *. destruct (snd (beh (with_args rep))) as [b|e]; [|left; discriminate].
  destruct (failed_expectations (fst (beh (with_args rep)))); [|right; discriminate]. destruct b; [discriminate|left; discriminate].
Qed.
Example C34_still_fails_ex : match runForAll 5 (inOrder 2 [1; 2; 23; 20; 5]%Z) (prop1 f2 2 5) tt with
  | Ok (VFalsified t why rep, s) => simplest_args rep = [21; 0]%Z /\ f2 (simplest_args rep) = ([], URet false) | _ => False end.
Proof. vm_compute. auto. Qed.

(** * C35: discarding and succeeding inputs while shrinking *)

(** A shrink candidate on which the property discards or signals success is taken: here the first candidate of the only argument. *)
Theorem C35_signals_taken : forall E V W ev (P : property E V W) beh s rep s' v c cs r1, pure_property P beh ->
  evalTuple (ord_regen ev) (gens P) (rnd s) = Ok (inl [elift (Node v (c :: cs))], r1) -> ord_shrinks ev = [0%nat] -> ord_each ev = [0%nat] ->
  signals beh [root c] -> shrink ev P s = Ok (rep, s') -> exists t, reach c t /\ simplest_args rep = [root t].
Proof.
  intros E V W ev P beh s rep s' v c cs r1 HP Hr Ho1 Ho2 Hs H. apply shrink_inv in H. destruct H as [ts [r2 [streams [r3 [ts' [H1 [H2 [H3 [_ H5]]]]]]]]].
  rewrite Hr in H1. inversion H1; subst ts r2. rewrite Ho1 in H2. rewrite Ho2 in H3.
  unfold evalTuple in H2. simpl in H2. rewrite elift_eq in H2. unfold gbind, gret in H2. simpl in H2. inversion H2; subst streams r3. clear H1 H2.
  cbn [shrinkEach nth_error] in H3. apply bind_ok in H3. destruct H3 as [[cur s1] [H3 H4]]. inversion H4; subst ts' s'. clear H4.
  change (elist (shrinks (Node v (c :: cs)))) with (ECons (E := E) (elift c) (gret (elist cs))) in H3. cbn [shrinkStream] in H3. unfold gret in H3 at 1.
  apply bind_ok in H3. destruct H3 as [[[b c'] s2] [Ht H3]].
  apply (test_pure _ _ _ _ _ _ _ _ _ _ _ _ _ HP) in Ht; auto. destruct Ht as [_ Ht]. cbn [map set_nth eroot] in Ht.
  assert (Hb : bad beh [root c]) by (left; destruct Hs as [->| ->]; discriminate).
  destruct (negb b || hasFailures c') eqn:Eb; [|destruct Ht as [Ht _]; contradiction].
  apply (proj1 (shrink_pure _ _ _ _ _ _ HP)) in H3; auto. destruct H3 as [t' [-> [R _]]]. destruct (elift_reach _ _ _ _ R c (eq_sym (elift_eq _ _ c))) as [u [U1 ->]].
  exists u. split; auto. rewrite H5. simpl. rewrite elift_root. auto.
Qed.

(** So the arguments reported as simplest may be ones the property never rejects. *)
Theorem C35_simplest_discards_refuted : ~ forall E V W fuel ev (P : property E V W) beh w t why rep s',
  pure_property P beh -> quiet (gens P) -> no_leak beh -> ord_regen ev = ord_call ev -> order (length (gens P)) (ord_each ev) ->
  runForAll fuel ev P w = Ok (VFalsified t why rep, s') -> exists why', judge (beh (simplest_args rep)) = JFail why'.
Proof.
  intros H. assert (X : exists v s, runForAll 5 (inOrder 1 [2; 32]%Z) (prop1 f1 1 5) tt = Ok (v, s) /\
    exists t why rep, v = VFalsified t why rep /\ judge (f1 (simplest_args rep)) = JDiscard).
  { apply ok_witness. vm_compute. eexists _, _, _. split; [reflexivity|]. reflexivity. }
  destruct X as [v [s [X [t [why [rep [-> Hj]]]]]]].
  destruct (H _ _ _ 5%nat (inOrder 1 [2; 32]%Z) _ _ _ _ _ _ _ (prop1_pure f1 1 5) (prop1_quiet f1 1 5) f1_no_leak eq_refl (Permutation_refl _) X) as [why' Hx]. congruence.
Qed.
Example C35_ex : match runForAll 5 (inOrder 1 [2; 32]%Z) (prop1 f1 1 5) tt with
  | Ok (VFalsified t why rep, s) => with_args rep = [32]%Z /\ simplest_args rep = [1]%Z /\ snd (f1 [1]%Z) = UThrow EDiscard | _ => False end.
Proof. vm_compute. auto. Qed.
Definition f3 (a : list Z) : list op * ures := match a with [5%Z] => ([], UThrow ESuccess) | [x] => ([], URet (x <? 8)%Z) | _ => ([], URet false) end.
Example C35_signals_taken_ex : signals f3 [5]%Z /\ evalTuple (ord_regen (inOrder 1 [])) (gens (prop1 f3 1 5)) [10%Z] = Ok (inl [elift (halves 7 10)], []) /\
  match runForAll 5 (inOrder 1 [2; 10]%Z) (prop1 f3 1 5) tt with
  | Ok (VFalsified t why rep, s) => simplest_args rep = [5]%Z /\ judge (f3 [5]%Z) = JPass | _ => False end.
Proof. split; [left; reflexivity|]. split; [reflexivity|]. vm_compute. auto. Qed.

(** * C36: which run a failed expectation fails *)

(** When no input fails an expectation and then discards or succeeds, a failure by expectations belongs to the last input drawn, lists exactly its failed
    expectations, and no earlier input failed any. *)
Theorem C36_attribution : forall E V W fuel ev (P : property E V W) beh w t fs rep s',
  pure_property P beh -> quiet (gens P) -> no_leak beh ->
  runForAll fuel ev P w = Ok (VFalsified t (RExpectation fs) rep, s') ->
  exists l a r', drawn ev P (seeded ev (seed P)) (l ++ [a]) r' /\ fs = failed_expectations (fst (beh a)) /\ fs <> [] /\
    (exists b, snd (beh a) = URet b) /\ Forall (fun x => failed_expectations (fst (beh x)) = []) l.
Proof.
  intros E V W fuel ev P beh w t fs rep s' HP Hq Hl H.
  destruct (C32_false _ _ _ _ _ _ _ _ _ _ HP Hq Hl H eq_refl) as [l [a [r' [why [rep' [rest [Hd [Ha [Hj [_ [Hv _]]]]]]]]]]].
  inversion Hv; subst. exists l, a, r'. split; auto. unfold judge in Hj. destruct (snd (beh a)) as [b|e] eqn:Eb.
  - destruct (failed_expectations (fst (beh a))) as [|f fs'] eqn:Ef; [destruct b; discriminate|]. inversion Hj; subst. split; auto. split; [discriminate|]. split; eauto.
    apply Forall_forall. intros x Hx. rewrite Forall_forall in Ha. specialize (Ha x Hx). destruct (failed_expectations (fst (beh x))) as [|f' q] eqn:Ex; auto. exfalso.
    destruct (Hl x) as [L1 L2]; [congruence|]. unfold acceptable, judge in Ha. destruct (snd (beh x)) as [b'|e]; [rewrite Ex in Ha; destruct Ha; discriminate|].
    destruct e; destruct Ha; congruence.
  - destruct e; discriminate.
Qed.

(** Expectations failed by runs that then discard or signal success stay recorded and fail the next run that returns, even one returning true with no
    failed expectation of its own. *)
Theorem C36_leak : forall E V W ev (P : property E V W) beh w l a b r',
  pure_property P beh -> maxDurationMs P = 0%Z -> tame P ->
  (forall r, exists ts r1, evalTuple (ord_regen ev) (gens P) r = Ok (inl ts, r1) /\ Forall etotal ts) ->
  order (length (gens P)) (ord_shrinks ev) -> order (length (gens P)) (ord_each ev) ->
  drawn ev P (seeded ev (seed P)) (l ++ [a]) r' -> Forall (signals beh) l -> (length (filter (is_success beh) l) < numRuns P)%nat ->
  snd (beh a) = URet b -> Exists (fun x => failed_expectations (fst (beh x)) <> []) l ->
  forall fuel, (length l < fuel)%nat ->
  exists rep s', runForAll fuel ev P w =
    Ok (VFalsified (S (length (filter (is_success beh) l))) (RExpectation (flat_map (fun x => failed_expectations (fst (beh x))) (l ++ [a]))) rep, s').
Proof.
  intros E V W ev P beh w l a b r' HP Ht Htame Hreg Ho1 Ho2 Hd Hs Hn Hb Hex fuel Hf.
  apply drawn_split in Hd. destruct Hd as [r1 [Hd1 Hd2]].
  destruct (history_signals _ _ _ _ _ _ HP _ _ _ Hd1 Hs {| rnd := seeded ev (seed P); cx := newctx; wd := w; lg := [] |} eq_refl) as [s0 [ks [H [Hp [Hr [[R1 _] Hlen]]]]]].
  inversion Hd2 as [|? ts r2 l2 ? Ev Hd3]; subst.
  pose proof (pure_attempt _ _ _ ev P beh s0 ts r2 HP Ev) as Hat. rewrite Hb in Hat.
  assert (Hfl : failures (cx (after beh (map eroot ts) r2 s0)) = flat_map (fun x => failed_expectations (fst (beh x))) (l ++ [map eroot ts])).
  { simpl. rewrite failures_ops, R1. simpl. rewrite failures_ops. simpl. rewrite failed_flat, flat_map_app. simpl. rewrite app_nil_r. auto. }
  assert (Hne : failures (cx (after beh (map eroot ts) r2 s0)) <> []).
  { rewrite Hfl. apply Exists_exists in Hex. destruct Hex as [x [Hx1 Hx2]]. destruct (failed_expectations (fst (beh x))) as [|f q] eqn:Ef; [congruence|].
    intros Hc. assert (Hin : In f (flat_map (fun x => failed_expectations (fst (beh x))) (l ++ [map eroot ts]))).
    { apply in_flat_map. exists x. split; [apply in_or_app; auto|]. rewrite Ef. left. auto. }
    rewrite Hc in Hin. destruct Hin. }
  pose proof (f_expectation _ _ _ _ _ Hat Hne) as Hfa. rewrite Hfl in Hfa.
  destruct (Hreg (rnd s0)) as [ts' [r3 [Er Et]]].
  edestruct (shrink_terminates _ _ _ ev P (with_rnd (rnd s0) (with_cx (snd (ctx_flush (cx (after beh (map eroot ts) r2 s0)))) (after beh (map eroot ts) r2 s0))) ts' r3 Htame Er Et Ho1 Ho2) as [rep [s2 Hsh]].
  exists rep, s2. unfold runForAll. rewrite <- Hp in *. change (S (passes ks)) with (S (0 + passes ks)). eapply runLoop_falsified; eauto.
  - intros. left. auto.
  - lia.
Qed.

(** Expects 0 to be positive on odd inputs, which it then discards; returns true otherwise. *)
Definition fail0 : failure := {| f_file := "t.cpp"; f_line := 7; f_cond := "0 > 0"; f_str := "" |}%string.
Definition f4 (a : list Z) : list op * ures :=
  match a with [x] => if Z.odd x then ([OExpect false fail0 ""], UThrow EDiscard) else ([], URet true) | _ => ([], URet true) end%string.
(** 2 passes, 3 is discarded, then 6 -- for which the property returns true and expects nothing -- is reported as falsifying. *)
Example C36_leak_ex : match runForAll 5 (inOrder 1 [2; 3; 6; 8]%Z) (prop1 f4 1 5) tt with
  | Ok (v, s) => v = VFalsified 2 (RExpectation [fail0]) {| with_args := [6]%Z; simplest_args := [1]%Z |} /\ f4 [6]%Z = ([], URet true) | _ => False end.
Proof. vm_compute. auto. Qed.
Example C36_leak_ex2 : signals f4 [3]%Z /\ failed_expectations (fst (f4 [3]%Z)) <> [] /\
  drawn (inOrder 1 [3; 6]%Z) (prop1 f4 1 5) (seeded (inOrder 1 [3; 6]%Z) 1) [[3]; [6]]%Z [].
Proof.
  split; [right; reflexivity|]. split; [discriminate|]. eapply drawn_cons with (ts := [elift (halves 7 3)]); [reflexivity|].
  eapply drawn_cons with (ts := [elift (halves 7 6)]); [reflexivity|]. constructor.
Qed.
(** Expects its argument to be small, and returns true. *)
Definition f5 (a : list Z) : list op * ures := match a with [x] => ([OExpect (x <? 10)%Z fail0 ""], URet true) | _ => ([], URet true) end%string.
Example C36_attribution_ex : no_leak f5 /\ match runForAll 5 (inOrder 1 [2; 3; 16; 8]%Z) (prop1 f5 1 5) tt with
  | Ok (v, s) => v = VFalsified 3 (RExpectation [fail0]) {| with_args := [16]%Z; simplest_args := [10]%Z |} | _ => False end.
Proof.
  split; [|vm_compute; auto]. intros [|x [|y a]] H; try (exfalso; apply H; reflexivity). split; discriminate.
Qed.

(** What a hook does when it does not throw: the expectations and tags it makes, and the world it leaves; an absent hook does nothing. *)
Definition hook_does {W} (h : option (W -> list op * option err * W)) (w : W) (ops : list op) (w' : W) : Prop :=
  match h with None => ops = [] /\ w' = w | Some f => f w = (ops, None, w') end.

(** Expectations that fail in a hook count as if they had failed in the property: the run is falsified, with the failures of the start-up hook,
    the property and the clean-up hook in that order, whatever the property returned. *)
Theorem C36_hooks : forall E V W fuel ev (P : property E V W) w o1 w1 ts r1 o2 b w2 o3 w3 v s',
  hook_does (onStartup P) w o1 w1 -> evalTuple (ord_call ev) (gens P) (seeded ev (seed P)) = Ok (inl ts, r1) ->
  func P (map eroot ts) w1 = (o2, URet b, w2) -> hook_does (onCleanup P) w2 o3 w3 ->
  (0 < numRuns P)%nat -> maxDurationMs P = 0%Z -> failed_expectations (o1 ++ o2 ++ o3) <> [] ->
  runForAll (S fuel) ev P w = Ok (v, s') ->
  exists rep, v = VFalsified 1 (RExpectation (failed_expectations (o1 ++ o2 ++ o3))) rep.
Proof.
  intros E V W fuel ev P w o1 w1 ts r1 o2 b w2 o3 w3 v s' H1 Hg H2 H3 Hn Hm Hf H.
  assert (Hh : forall h e (s : rs E V W) o w', hook_does h (wd s) o w' ->
            exists l, runHook h e s = (None, {| rnd := rnd s; cx := apply_ops o (cx s); wd := w'; lg := l |})).
  { intros h e s o w' Hh. unfold hook_does in Hh. unfold runHook. destruct h as [f|].
    - rewrite Hh. eauto.
    - destruct Hh as [-> ->]. exists (lg s). destruct s; auto. }
  unfold runForAll in H. destruct (numRuns P) as [|n]; [lia|]. cbn [runLoop] in H. rewrite Hm in H. cbn [Z.eqb negb andb retryRun] in H.
  unfold attempt in H.
  destruct (Hh _ EStartup {| rnd := seeded ev (seed P); cx := newctx; wd := w; lg := [] |} o1 w1 H1) as [l1 Q1]. rewrite Q1 in H. cbn [rnd] in H.
  rewrite Hg in H. cbn [bind] in H. unfold callFunc in H. cbn [wd with_rnd rnd cx lg] in H. rewrite H2 in H.
  match type of H with context [runHook (onCleanup P) ECleanup ?s] => destruct (Hh _ ECleanup s o3 w3 H3) as [l3 Q3]; rewrite Q3 in H end.
  cbn [bind cx rnd wd lg ctx_flush] in H. unfold ctx_flush in H. rewrite !failures_ops in H. cbn [failures newctx app] in H.
  assert (Hx : failed_expectations (o1 ++ o2 ++ o3) = (failed_expectations o1 ++ failed_expectations o2) ++ failed_expectations o3)
    by (unfold failed_expectations; rewrite !flat_map_app, app_assoc; auto).
  rewrite Hx in *. destruct ((failed_expectations o1 ++ failed_expectations o2) ++ failed_expectations o3) as [|f fs]; [congruence|].
  cbn [bind] in H. match type of H with bind ?x _ = _ => destruct x as [[rep s2]| | |]; try discriminate end.
  cbn [bind] in H. inversion H; subst. eauto.
Qed.
Example C36_hooks_ex :
  let P := {| func := fun _ (w : unit) => ([], URet true, w); gens := gens (prop1 f1 1 5); onStartup := None;
              onCleanup := Some (fun w => ([OExpect true fail0 ""; OExpect false fail0 ""]%string, None, w));
              numRuns := 5; seed := 1%Z; maxDurationMs := 0%Z |} in
  match runForAll 5 (inOrder 1 [2; 3; 16; 8]%Z) P tt with
  | Ok (v, s) => exists rep, v = VFalsified 1 (RExpectation [fail0]) rep | _ => False end.
Proof. vm_compute. eexists. reflexivity. Qed.

(** * C38: example *)

(** Without hooks: the property is called once, on the given arguments; the result depends on how that call ends, not on what it expected; the
    context of the caller is left alone. *)
Theorem C38_example : forall E V W (P : property E V W) args s, onStartup P = None -> onCleanup P = None ->
  let '(ops, u, w) := func P args (wd s) in
  example P args s =
    match u with
    | URet b => Ok (b, {| rnd := rnd s; cx := cx s; wd := w; lg := lg s ++ [ECall args u] |})
    | UThrow ENonStd => Throw ENonStd
    | UThrow ESuccess => Ok (true, {| rnd := rnd s; cx := cx s; wd := w; lg := lg s ++ [ECall args u] |})
    | UThrow _ => Ok (false, {| rnd := rnd s; cx := cx s; wd := w; lg := lg s ++ [ECall args u] |})
    end.
Proof.
  intros E V W P args s Hs Hc. destruct (func P args (wd s)) as [[ops u] w] eqn:Ef. unfold example. rewrite Hs, Hc. cbn [runHook]. unfold callFunc.
  cbn [wd with_cx cx rnd lg]. rewrite Ef. destruct u as [b|e]; [reflexivity|]. destruct e; reflexivity.
Qed.

(** With any hooks: one attempt on the given arguments; it is true exactly when the function ended with true and the clean-up did not throw, or something threw Success. *)
Theorem C38_example_hooks : forall E V W (P : property E V W) args s b s', example P args s = Ok (b, s') ->
  exists seg, lg s' = lg s ++ seg /\ bracketed (has (onStartup P)) (has (onCleanup P)) seg /\ (forall a u, In (ECall a u) seg -> a = args) /\
    cx s' = cx s /\ rnd s' = rnd s.
Proof.
  intros E V W P args s b s' H. unfold example in H.
  destruct (runHook (onStartup P) EStartup (with_cx newctx s)) as [r1 s1] eqn:E1. apply runHook_log in E1. destruct E1 as [L1 [R1 N1]]. cbn [lg rnd with_cx] in L1, R1.
  assert (Hc : forall e (q : rs E V W), match e with ENonStd => Throw ENonStd | ESuccess => Ok (true, with_cx (cx s) q) | _ => Ok (false, with_cx (cx s) q) end = Ok (b, s') ->
            s' = with_cx (cx s) q) by (intros e q Hx; destruct e; inversion Hx; auto).
  destruct r1 as [e|].
  - apply Hc in H. subst s'. destruct (has (onStartup P)) eqn:Eh; [|destruct N1; auto; discriminate].
    exists [EStartup]. split; auto. split; [constructor; auto|]. split; [|auto]. intros a u [Hx|[]]; discriminate.
  - destruct (callFunc P args s1) as [u s2] eqn:E2. apply callFunc_log in E2. destruct E2 as [L2 R2]. destruct u as [b0|e].
    + destruct (runHook (onCleanup P) ECleanup s2) as [r3 s3] eqn:E3. apply runHook_log in E3. destruct E3 as [L3 [R3 _]].
      assert (Hs : s' = with_cx (cx s) s3) by (destruct r3; [apply Hc in H; auto|inversion H; auto]). subst s'.
      eexists. split; [|split; [apply (br_returned (has (onStartup P)) (has (onCleanup P)) args b0)|]].
      * cbn [lg with_cx]. rewrite L3, L2, L1, <- !app_assoc. auto.
      * split; [|split; auto; cbn [rnd with_cx]; congruence]. intros a u Hin. apply in_app_or in Hin. destruct Hin as [Hin|Hin].
        { destruct (has (onStartup P)); [destruct Hin as [Hin|[]]; discriminate|destruct Hin]. }
        destruct Hin as [Hin|Hin]; [inversion Hin; auto|]. destruct (has (onCleanup P)); [destruct Hin as [Hin|[]]; discriminate|destruct Hin].
    + apply Hc in H. subst s'. eexists. split; [|split; [apply (br_threw (has (onStartup P)) (has (onCleanup P)) args e)|]].
      * cbn [lg with_cx]. rewrite L2, L1, <- !app_assoc. auto.
      * split; [|split; auto; cbn [rnd with_cx]; congruence]. intros a u Hin. apply in_app_or in Hin. destruct Hin as [Hin|Hin].
        { destruct (has (onStartup P)); [destruct Hin as [Hin|[]]; discriminate|destruct Hin]. }
        destruct Hin as [Hin|[]]. inversion Hin; auto.
Qed.
Example C38_ex : map (fun a => match example (prop1 f1 1 5) a (start []) with Ok (b, _) => Some b | _ => None end) [[2]; [12]; [4]; [3]]%Z
  = [Some true; Some false; Some true; Some false].
Proof. vm_compute. reflexivity. Qed.
(** A failed expectation does not matter to example, though it does to forAll. *)
Example C38_ex2 : match example (prop1 f5 1 5) [50]%Z (start []) with Ok (b, _) => b = true | _ => False end /\ judge (f5 [50]%Z) = JFail (RExpectation [fail0]).
Proof. vm_compute. auto. Qed.
Definition hooked (f : list Z -> list op * ures) : property replay Z unit :=
  {| func := fun a w => (fst (f a), snd (f a), w); gens := [anInt]; onStartup := Some (fun w => ([], None, w)); onCleanup := Some (fun w => ([], None, w));
     numRuns := 3; maxDurationMs := 0; seed := 1 |}.
Example C38_ex3 : match example (hooked f1) [50]%Z (start []) with Ok (b, s) => b = false /\ lg s = [EStartup; ECall [50]%Z (URet false); ECleanup] | _ => False end /\
  match example (hooked f1) [3]%Z (start []) with Ok (b, s) => b = false /\ lg s = [EStartup; ECall [3]%Z (UThrow EDiscard)] | _ => False end.
Proof. vm_compute. auto. Qed.

(** * C40: number of runs, time limit, seed *)

(** With a time limit: every run counted was started within the limit; success is reported either after numRuns runs, or when, at the start of a
    further run, the limit had passed. *)
Theorem C40_time_limit : forall E V W fuel ev (P : property E V W) w v s', runForAll fuel ev P w = Ok (v, s') -> maxDurationMs P <> 0%Z ->
  exists done, (done <= numRuns P)%nat /\ (forall j, (j < done)%nat -> (elapsed ev j <= maxDurationMs P)%Z) /\
    match v with
    | VPassed _ => done = numRuns P
    | VTimedOut k _ => done = k /\ (k < numRuns P)%nat /\ (maxDurationMs P < elapsed ev k)%Z
    | VFalsified t _ _ => done = t
    end.
Proof.
  intros E V W fuel ev P w v s' H Hm. apply runLoop_ok in H.
  assert (Hin : forall j, in_time ev P j -> (elapsed ev j <= maxDurationMs P)%Z) by (intros j [Hx|Hx]; [contradiction|auto]).
  destruct v as [sm|k sm|t why rep].
  - destruct H as [_ [ks [_ [Hn [_ Hj]]]]]. exists (numRuns P). split; auto. split; auto. intros j Hx. apply Hin, Hj. lia.
  - destruct H as [_ [ks [_ [_ [Hn [Hk [Hj Hx]]]]]]]. simpl in Hk. exists k. split; [lia|]. split; [intros j Hlt; apply Hin, Hj; lia|]. split; auto. split; [lia|].
    destruct (Z_lt_dec (maxDurationMs P) (elapsed ev k)); auto. exfalso. apply Hx. right. lia.
  - destruct H as [ks [s0 [s1 [_ [_ [Hn [Ht [Hj _]]]]]]]]. exists t. split; [lia|]. split; auto. intros j Hx. apply Hin, Hj. lia.
Qed.

(** Each run takes 40 milliseconds. *)
Definition slow : env replay :=
  {| ord_call := [0%nat]; ord_regen := [0%nat]; ord_shrinks := [0%nat]; ord_each := [0%nat]; seeded := fun _ => ([2; 4; 0; 8]%Z : rst replay); elapsed := fun i => (Z.of_nat i * 40)%Z |}.
Example C40_time_limit_ex :
  match runForAll 5 slow (configure (prop1 f1 1 9) (SetMaxDurationMs 50)) tt with Ok (VTimedOut k _, s) => k = 2%nat /\ args_of (lg s) = [[2]; [4]]%Z | _ => False end.
Proof. vm_compute. auto. Qed.

(** Without hooks, the inputs the property is called with are the first ones determined by the seed, the generators and the order of evaluation alone: however the
    property behaves, two checks with the same seed and generators agree on the inputs as far as both go. *)
Theorem C40_inputs : forall E V W fuel ev (P : property E V W) w v s', quiet (gens P) -> onStartup P = None ->
  runForAll fuel ev P w = Ok (v, s') ->
  exists l r' rest, drawn ev P (seeded ev (seed P)) l r' /\ args_of (lg s') = l ++ rest /\
    (succeeded v = true -> rest = []) /\ (forall t why rep, v = VFalsified t why rep -> (t <= length l)%nat).
Proof.
  intros E V W fuel ev P w v s' Hq Hs H. apply runLoop_ok in H. destruct v as [sm|k sm|t why rep].
  - destruct H as [_ [ks [H _]]]. destruct (history_inputs _ _ _ _ _ _ _ _ H Hq Hs) as [l [Hd [Ha _]]]. exists l, (rnd s'), []. rewrite app_nil_r.
    split; auto. split; auto. split; auto. discriminate.
  - destruct H as [_ [ks [H _]]]. destruct (history_inputs _ _ _ _ _ _ _ _ H Hq Hs) as [l [Hd [Ha _]]]. exists l, (rnd s'), []. rewrite app_nil_r.
    split; auto. split; auto. split; auto. discriminate.
  - destruct H as [ks [s0 [s1 [H [Hf [_ [Ht [_ Hsh]]]]]]]]. destruct (history_inputs _ _ _ _ _ _ _ _ H Hq Hs) as [l [Hd [Ha Hlen]]].
    destruct (falsifies_attempt _ _ _ _ _ _ _ _ Hf) as [o [s2 [Hat [L R]]]].
    destruct (attempt_input _ _ _ _ _ _ _ _ Hat Hq Hs) as [ts [r1 [Hev [Hr Hargs]]]].
    destruct (shrink_log _ _ _ _ _ _ _ _ Hsh) as [segs [L4 _]].
    exists (l ++ [map eroot ts]), r1, (args_of (concat segs)). split.
    + eapply drawn_app; eauto. eapply drawn_cons; eauto. constructor.
    + split; [|split; [discriminate|]].
      * rewrite L4, args_of_app. cbn [lg with_rnd]. rewrite L, Hargs, Ha. simpl. rewrite <- app_assoc. auto.
      * intros t' why' rep' Hv. inversion Hv; subst. rewrite app_length. simpl. rewrite Hlen. unfold passes.
        assert (Hle : (length (filter (fun k => match k with Passed => true | Discarded => false end) ks) <= length ks)%nat).
        { clear. induction ks as [|[] ks IH]; simpl; lia. }
        lia.
Qed.
Theorem C40_repeatable : forall E V W1 W2 ev (P1 : property E V W1) (P2 : property E V W2) r l1 r1 l2 r2, gens P1 = gens P2 ->
  drawn ev P1 r l1 r1 -> drawn ev P2 r l2 r2 -> (exists k, l2 = l1 ++ k) \/ (exists k, l1 = l2 ++ k).
Proof. intros. eapply drawn_det; eauto. Qed.
Example C40_inputs_ex : quiet (gens (prop1 f1 1 3)) /\ onStartup (prop1 f1 1 3) = None /\
  match runForAll 5 (inOrder 1 [3; 4; 2; 7; 9; 8]%Z) (prop1 f1 1 3) tt, runForAll 5 (inOrder 1 [3; 4; 2; 7; 9; 8]%Z) (prop1 f5 1 4) tt with
  | Ok (_, s), Ok (_, s') => args_of (lg s) = [[3]; [4]; [2]; [7]; [9]; [8]]%Z /\ args_of (lg s') = [[3]; [4]; [2]; [7]]%Z
  | _, _ => False end.
Proof. split; [apply prop1_quiet|]. split; [reflexivity|]. vm_compute. auto. Qed.

(** The last value given to each setter is the one used, whatever the order of the calls. *)
Theorem C40_last_setting : forall E V W (l : list (setter W)) (P : property E V W),
  let Q := fold_left configure l P in
  numRuns Q = last_set (fun x => match x with SetNumRuns v => Some v | _ => None end) l (numRuns P) /\
  seed Q = last_set (fun x => match x with SetSeed v => Some v | _ => None end) l (seed P) /\
  maxDurationMs Q = last_set (fun x => match x with SetMaxDurationMs v => Some v | _ => None end) l (maxDurationMs P) /\
  onStartup Q = last_set (fun x => match x with SetOnStartup h => Some (Some h) | _ => None end) l (onStartup P) /\
  onCleanup Q = last_set (fun x => match x with SetOnCleanup h => Some (Some h) | _ => None end) l (onCleanup P) /\
  gens Q = gens P /\ func Q = func P.
Proof.
  intros E V W. induction l as [|x l IH]; intros P; simpl; [repeat split|]. specialize (IH (configure P x)). simpl in IH.
  destruct IH as [-> [-> [-> [-> [-> [-> ->]]]]]]. destruct x; repeat split.
Qed.
Example C40_last_setting_ex : let Q := fold_left configure [SetNumRuns 7; SetSeed 3; SetNumRuns 2; SetMaxDurationMs 9]%Z (prop1 f1 1 5) in
  numRuns Q = 2%nat /\ seed Q = 3%Z /\ maxDurationMs Q = 9%Z.
Proof. vm_compute. auto. Qed.

(** * C41: hooks *)

(** Everything a check calls (in the search for a failure and in shrinking) is a sequence of attempts, each of which starts with the start-up hook if there
    is one, calls the property at most once, and ends with the clean-up hook exactly if that call returned and there is one. *)
Theorem C41_hooks : forall E V W fuel ev (P : property E V W) w v s', runForAll fuel ev P w = Ok (v, s') ->
  exists segs, lg s' = concat segs /\ Forall (bracketed (has (onStartup P)) (has (onCleanup P))) segs.
Proof. exact runForAll_log. Qed.

(** A re-test while shrinking likewise. *)
Theorem C41_hooks_shrinking : forall E V W ev (P : property E V W) s rep s', shrink ev P s = Ok (rep, s') ->
  exists segs, lg s' = lg s ++ concat segs /\ Forall (bracketed (has (onStartup P)) (has (onCleanup P))) segs.
Proof. exact shrink_log. Qed.

(** With a start-up hook no call of the property is made without it: there are at least as many start-ups as calls, and exactly as many
    clean-ups as calls that returned. *)
Definition starts {V} (l : list (event V)) : nat := length (filter (fun e => match e with EStartup => true | _ => false end) l).
Definition cleanups {V} (l : list (event V)) : nat := length (filter (fun e => match e with ECleanup => true | _ => false end) l).
Definition returns {V} (l : list (event V)) : nat := length (filter (fun e => match e with ECall _ (URet _) => true | _ => false end) l).
Theorem C41_counts : forall E V W fuel ev (P : property E V W) w v s', runForAll fuel ev P w = Ok (v, s') ->
  (has (onStartup P) = true -> (ncalls (lg s') <= starts (lg s'))%nat) /\ (has (onStartup P) = false -> starts (lg s') = 0%nat) /\
  cleanups (lg s') = (if has (onCleanup P) then returns (lg s') else 0%nat).
Proof.
  intros E V W fuel ev P w v s' H. apply runForAll_log in H. destruct H as [segs [-> Hb]].
  assert (Hs : forall a b : list (event V), starts (a ++ b) = (starts a + starts b)%nat) by (intros; unfold starts; rewrite filter_app, app_length; auto).
  assert (Hc : forall a b : list (event V), cleanups (a ++ b) = (cleanups a + cleanups b)%nat) by (intros; unfold cleanups; rewrite filter_app, app_length; auto).
  assert (Hr : forall a b : list (event V), returns (a ++ b) = (returns a + returns b)%nat) by (intros; unfold returns; rewrite filter_app, app_length; auto).
  induction Hb as [|g segs Hg Hb IH].
  - destruct (has (onCleanup P)); auto.
  - simpl. rewrite Hs, Hc, Hr, ncalls_app. destruct IH as [I1 [I2 I3]].
    assert (Hone : (has (onStartup P) = true -> (ncalls g <= starts g)%nat) /\ (has (onStartup P) = false -> starts g = 0%nat) /\
       cleanups g = (if has (onCleanup P) then returns g else 0%nat)).
    { inversion Hg; subst; destruct (has (onStartup P)); destruct (has (onCleanup P)); repeat split; intros; try discriminate; unfold ncalls, starts, cleanups, returns; simpl; try lia; auto. }
    destruct Hone as [O1 [O2 O3]]. split; [intros Hx; specialize (I1 Hx); specialize (O1 Hx); lia|]. split; [intros Hx; rewrite (I2 Hx), (O2 Hx); auto|].
    rewrite I3, O3. destruct (has (onCleanup P)); auto.
Qed.
Example C41_ex : match runForAll 5 (inOrder 1 [4; 3; 2; 10]%Z) (hooked f1) tt with
  | Ok (VFalsified _ _ _, s) => firstn 10 (lg s) = [EStartup; ECall [4]%Z (UThrow ESuccess); EStartup; ECall [3]%Z (UThrow EDiscard); EStartup; ECall [2]%Z (URet true); ECleanup;
       EStartup; ECall [10]%Z (URet false); ECleanup] /\ starts (lg s) = 17%nat /\ cleanups (lg s) = 11%nat
  | _ => False end.
Proof. vm_compute. auto. Qed.

(** * C42: explicit generators *)

(** property(f, g1, ..., gk): generator i for argument i, the default one afterwards. *)
Theorem C42_property : forall X (defaults explicits : list X) i, (length explicits <= length defaults)%nat ->
  nth_error (createGenTuple defaults explicits) i = if (i <? length explicits)%nat then nth_error explicits i else nth_error defaults i.
Proof.
  intros X defaults explicits i H.
  assert (Hl : forall k, (k <= length defaults)%nat -> createGenHelperListed defaults (map (fun i => k + i)%nat (seq 0 (length defaults - k))) = skipn k defaults).
  { clear. intros k. revert defaults. 
    assert (Hx : forall n a (d : list X), (a + n = length d)%nat -> createGenHelperListed d (seq a n) = skipn a d).
    { induction n as [|n IH]; intros a d Ha; [symmetry; apply skipn_all2; lia|].
      destruct (nth_error d a) as [x|] eqn:En; [|apply nth_error_None in En; lia]. unfold createGenHelperListed in *. cbn [seq flat_map]. rewrite En, IH by lia.
      clear -En. revert d En. induction a as [|a IHa]; intros [|y d] En; simpl in *; try discriminate; [inversion En; auto|apply IHa; auto]. }
    intros defaults Hk. replace (map (fun i => (k + i)%nat) (seq 0 (length defaults - k))) with (seq k (length defaults - k)); [apply Hx; lia|].
    generalize (length defaults - k)%nat. clear. intros n. apply nth_error_ext. intros i. rewrite nth_error_map.
    assert (Hs : forall len a n, nth_error (seq a len) n = if (n <? len)%nat then Some (a + n)%nat else None).
    { induction len as [|len IH]; intros a m; [destruct m; auto|]. destruct m as [|m]; cbn [seq nth_error]; [rewrite Nat.add_0_r; auto|].
      rewrite IH. change (S m <? S len)%nat with (m <? len)%nat. rewrite Nat.add_succ_comm. auto. }
    rewrite !Hs. destruct (i <? n)%nat; auto. }
  unfold createGenTuple. destruct (length explicits =? 0)%nat eqn:E0.
  - apply Nat.eqb_eq in E0. rewrite E0. replace (seq 0 (length defaults)) with (map (fun i => 0 + i)%nat (seq 0 (length defaults - 0)))
      by (rewrite Nat.sub_0_r; rewrite <- (map_id (seq 0 (length defaults))) at 2; auto).
    rewrite Hl by lia. simpl. auto.
  - destruct (length explicits =? length defaults)%nat eqn:E1.
    + apply Nat.eqb_eq in E1. destruct (i <? length explicits)%nat eqn:E; auto. apply Nat.ltb_ge in E.
      rewrite (proj2 (nth_error_None _ _) E). symmetry. apply nth_error_None. lia.
    + rewrite Hl by auto. destruct (i <? length explicits)%nat eqn:E.
      * apply Nat.ltb_lt in E. apply nth_error_app1. auto.
      * apply Nat.ltb_ge in E. rewrite nth_error_app2 by auto. rewrite nth_error_skipn_add. f_equal. lia.
Qed.

(** forAll(g1, ..., gk): generator i for argument i, the stored one afterwards; nothing else changes, and the property keeps its own generators. *)
Theorem C42_forAll : forall E V W fuel ev (P : property E V W) explicit w, (length explicit <= length (gens P))%nat ->
  exists Q, forAll fuel ev P explicit w = runForAll fuel ev Q w /\
    (forall i, nth_error (gens Q) i = if (i <? length explicit)%nat then nth_error explicit i else nth_error (gens P) i) /\
    func Q = func P /\ onStartup Q = onStartup P /\ onCleanup Q = onCleanup P /\ numRuns Q = numRuns P /\ maxDurationMs Q = maxDurationMs P /\ seed Q = seed P.
Proof.
  intros E V W fuel ev P explicit w H. eexists. split; [reflexivity|]. cbn [gens func onStartup onCleanup numRuns maxDurationMs seed]. split; [|repeat split].
  assert (Hg : forall X (args : list X) a tup i, (a + length args <= length tup)%nat ->
    nth_error (fold_left (fun copy ix => set_nth (fst ix) (snd ix) copy) (combine (seq a (length args)) args) tup) i =
    if ((a <=? i) && (i <? a + length args))%nat then nth_error args (i - a) else nth_error tup i).
  { clear. intros X. induction args as [|x args IH]; intros a tup i Ha; simpl.
    - destruct (a <=? i)%nat eqn:E1; auto. destruct (i <? a + 0)%nat eqn:E2; auto. apply Nat.leb_le in E1. apply Nat.ltb_lt in E2. lia.
    - rewrite IH by (rewrite set_nth_len; simpl in Ha; lia). simpl in Ha.
      destruct (Nat.eq_dec i a) as [->|Hne].
      + rewrite (proj2 (Nat.leb_gt (S a) a)) by lia. simpl. rewrite Nat.leb_refl, Nat.sub_diag. rewrite (proj2 (Nat.ltb_lt _ _)) by lia. simpl.
        apply set_nth_at. lia.
      + destruct (a <=? i)%nat eqn:E1.
        * apply Nat.leb_le in E1. rewrite (proj2 (Nat.leb_le (S a) i)) by lia. simpl. rewrite Nat.add_succ_r. destruct (i <? S (a + length args))%nat; simpl.
          { replace (i - a)%nat with (S (i - S a)) by lia. auto. }
          apply set_nth_other. auto.
        * apply Nat.leb_gt in E1. rewrite (proj2 (Nat.leb_gt (S a) i)) by lia. simpl. apply set_nth_other. auto. }
  intros i. unfold overrideTuple. rewrite Hg by (simpl; auto). rewrite Nat.sub_0_r. simpl. auto.
Qed.
Example C42_ex : createGenTuple [1; 2; 3; 4]%Z [10; 20]%Z = [10; 20; 3; 4]%Z /\ createGenTuple [1; 2; 3; 4]%Z [] = [1; 2; 3; 4]%Z /\
  overrideTuple [1; 2; 3; 4]%Z [10; 20; 30]%Z = [10; 20; 30; 4]%Z.
Proof. vm_compute. auto. Qed.
Definition seven : xgen replay Z := gret (inl (elift (Node 7%Z []))).
Example C42_ex2 : match forAll 5 (inOrder 2 [3; 4; 2]%Z) (prop1 f5 2 2) [seven] tt with Ok (_, s) => args_of (lg s) = [[7; 3]; [7; 4]]%Z | _ => False end.
Proof. vm_compute. auto. Qed.

Print Assumptions C32_true.
Print Assumptions C32_false.
Print Assumptions C32_true_on.
Print Assumptions C32_false_on.
Print Assumptions C32_true_back.
Print Assumptions C32_false_back.
Print Assumptions C32_general.
Print Assumptions C32_nonstd.
Print Assumptions C33_replay.
Print Assumptions C33_replay_fails.
Print Assumptions C33_replay_one_argument.
Print Assumptions C33_replay_refuted.
Print Assumptions C34_terminates.
Print Assumptions C34_result.
Print Assumptions C34_minimal.
Print Assumptions C34_bounded.
Print Assumptions C34_still_fails.
Print Assumptions C35_signals_taken.
Print Assumptions C35_simplest_discards_refuted.
Print Assumptions C36_attribution.
Print Assumptions C36_leak.
Print Assumptions C36_hooks.
Print Assumptions C38_example.
Print Assumptions C38_example_hooks.
Print Assumptions C40_time_limit.
Print Assumptions C40_inputs.
Print Assumptions C40_repeatable.
Print Assumptions C40_last_setting.
Print Assumptions C41_hooks.
Print Assumptions C41_hooks_shrinking.
Print Assumptions C41_counts.
Print Assumptions C42_property.
Print Assumptions C42_forAll.
