(** C86: how likely a stateful test finds a failure. *)
From Coq Require Import String List ZArith QArith Lia Lqa Bool Arith Permutation.
From Verif Require Import Base TreeModel TreeSpec RandomModel ContainerModel GenModel EffModel EffSpec ContextModel ContextSpec RunnerModel RunnerSpec StatefulModel StatefulSpec StatefulProof.
From Verif Require Import ChanceSpec ChanceProof ChanceLawProof ChanceCombProof EndingSpec EndingProof BugChanceSpec BugChanceProof.
Import ListNotations.
Local Open Scope Q_scope.

(** The function-based interface: each run passes with the probability that the object and model survive a number of actions between 0 and 200, all
    equally likely; so go() returns false with probability 1 - s^n after n runs. *)
Theorem C86_go : forall O M W (ev : setting) (s : forall E, sprop E O M W) ig ag factory post (good : action O M W -> Prop) po pa ord dr dd gs stale fuel n w,
  (forall E, sp_initialGen (s E) = ig E /\ sp_actionGen (s E) = ag E /\ sp_modelFactory (s E) = factory /\ sp_postCheck (s E) = post /\
     sp_onStartup (s E) = None /\ sp_onCleanup (s E) = None /\
     maxDurationMs (sbuild dr dd gs (s E)) = 0%Z /\ numRuns (sbuild dr dd gs (s E)) = n) ->
  (forall E, ord_call (ev E) = ord) -> order 2 ord -> argumentFollows ig po -> leaves (fun x => exists o, x = inl o) po -> law ag pa -> leaves good pa ->
  (forall a o m, good a -> tame (a_func a o m)) -> (forall o, tame (factory o)) -> (forall f o m, post = Some f -> tame (f o m)) ->
  let pass := survival (actionStep w) (checkOk w post) (fun o => settles w (factory o)) 0 200 po pa in
  likelyResult (fun E r => Ok (returnedTrue (fst (sgo (S fuel) (starting r (ev E)) dr dd gs (stale E) (s E) w)))) (fun b => b) (power pass n) /\
  likelyResult (fun E r => Ok (returnedTrue (fst (sgo (S fuel) (starting r (ev E)) dr dd gs (stale E) (s E) w)))) negb (1 - power pass n).
Proof.
  intros O M W ev s ig ag factory post good po pa ord dr dd gs stale fuel n w Hs Hord Ho Hi Hpo Ha Hpa Hg Hf Hp pass.
  assert (HP : power (lpass w (statefulBody factory post) po (list_plan 0 200 pa)) n == power pass n).
  { apply power_ext. apply (survival_pass _ _ _ _ w (statefulBody factory post) good); [lia|exact Hpa|]. intros o l Hl. apply (body_tame O M W good factory post Hg Hf Hp o l Hl). }
  assert (HL : law (fun E => arbi_vector (ag E) defaultSizes) (list_plan 0 200 pa)).
  { apply (vector_law _ ag pa 0 200 Ha); try lia. vm_compute. discriminate. }
  destruct (lists_forAll w (statefulBody factory post) good (fun o l Hl => proj1 (body_tame O M W good factory post Hg Hf Hp o l Hl)) ev (fun E => sbuild dr dd gs (s E)) ord ig
    (fun E => arbi_vector (ag E) defaultSizes) po (list_plan 0 200 pa) fuel n) as [(p1 & L1 & P1) (p2 & L2 & P2)]; auto.
  - intros E. destruct (Hs E) as (S1 & S2 & S3 & S4 & S5 & S6 & S7 & S8).
    destruct (sbuild_parts E O M W dr dd gs (s E)) as (B1 & B2 & B3 & B4 & B5 & B6 & B7). rewrite B6, B7, B1, B2, S1, S2, S3, S4, S5, S6. auto 8.
  - apply (leaves_list _ good pa 0 200 Hpa).
  - split; [exists p1|exists p2]; (split; [assumption|]); [rewrite P1; exact HP|rewrite P2, HP; reflexivity].
Qed.

(** The class-based interface, with a generator of vectors of actions: the same with the bounds of that vector; actions whose precondition does not hold are passed over. *)
Theorem C86_class : forall O M W (ev : setting) ig ag factory (good : caction O M W -> Prop) po pa ord dr gs fuel mn mx w,
  (forall E, ord_call (ev E) = ord) -> order 2 ord -> argumentFollows ig po -> leaves (fun x => exists o, x = inl o) po -> law ag pa -> leaves good pa ->
  (0 <= mn)%Z -> (mn <= mx)%Z -> (mx <= Base.UINT32_MAX)%Z ->
  (forall a o m, good a -> tame (precondition2 a o m) /\ tame (run2 a o m)) -> (forall o, tame (factory o)) ->
  let P := fun E => classProperty dr 0 gs (Some factory) (ig E) (arbi_vector (ag E) {| minSize := mn; maxSize := mx |}) in
  let pass := survival (classStep w) accepts (fun o => settles w (factory o)) mn mx po pa in
  likelyResult (fun E r => Ok (returnedTrue (runForAll (S fuel) (starting r (ev E)) (P E) w))) (fun b => b) (power pass dr) /\
  likelyResult (fun E r => Ok (returnedTrue (runForAll (S fuel) (starting r (ev E)) (P E) w))) negb (1 - power pass dr).
Proof.
  intros O M W ev ig ag factory good po pa ord dr gs fuel mn mx w Hord Ho Hi Hpo Ha Hpa H0 H1 H2 Hg Hf P pass.
  assert (HP : power (lpass w (classBody2 factory) po (list_plan mn mx pa)) dr == power pass dr).
  { apply power_ext. apply (survival_pass _ _ _ _ w (classBody2 factory) good); [exact H1|exact Hpa|]. intros o l Hl. apply (class_tame O M W good factory Hg Hf o l Hl). }
  destruct (lists_forAll w (classBody2 factory) good (fun o l Hl => proj1 (class_tame O M W good factory Hg Hf o l Hl)) ev P ord ig
    (fun E => arbi_vector (ag E) {| minSize := mn; maxSize := mx |}) po (list_plan mn mx pa) fuel dr) as [(p1 & L1 & P1) (p2 & L2 & P2)]; auto.
  - intros E. repeat split.
  - apply (vector_law _ ag pa mn mx Ha); auto.
  - apply (leaves_list _ good pa mn mx Hpa).
  - split; [exists p1|exists p2]; (split; [assumption|]); [rewrite P1; exact HP|rewrite P2, HP; reflexivity].
Qed.

Theorem C86_class_no_model : forall O M W (ev : setting) ig ag (good : caction O M W -> Prop) po pa ord dr gs fuel mn mx w,
  (forall E, ord_call (ev E) = ord) -> order 2 ord -> argumentFollows ig po -> leaves (fun x => exists o, x = inl o) po -> law ag pa -> leaves good pa ->
  (0 <= mn)%Z -> (mn <= mx)%Z -> (mx <= Base.UINT32_MAX)%Z ->
  (forall a o, good a -> tame (precondition1 a o) /\ tame (run1 a o)) ->
  let P := fun E => classProperty dr 0 gs None (ig E) (arbi_vector (ag E) {| minSize := mn; maxSize := mx |}) in
  let pass := survival (classStep1 w) accepts Some mn mx po pa in
  likelyResult (fun E r => Ok (returnedTrue (runForAll (S fuel) (starting r (ev E)) (P E) w))) (fun b => b) (power pass dr) /\
  likelyResult (fun E r => Ok (returnedTrue (runForAll (S fuel) (starting r (ev E)) (P E) w))) negb (1 - power pass dr).
Proof.
  intros O M W ev ig ag good po pa ord dr gs fuel mn mx w Hord Ho Hi Hpo Ha Hpa H0 H1 H2 Hg P pass.
  assert (HP : power (lpass w classBody1 po (list_plan mn mx pa)) dr == power pass dr).
  { apply power_ext. apply (survival_pass _ _ _ _ w classBody1 good); [exact H1|exact Hpa|]. intros o l Hl. apply (class1_tame O M W good Hg o l Hl). }
  destruct (lists_forAll w classBody1 good (fun o l Hl => proj1 (class1_tame O M W good Hg o l Hl)) ev P ord ig
    (fun E => arbi_vector (ag E) {| minSize := mn; maxSize := mx |}) po (list_plan mn mx pa) fuel dr) as [(p1 & L1 & P1) (p2 & L2 & P2)]; auto.
  - intros E. repeat split.
  - apply (vector_law _ ag pa mn mx Ha); auto.
  - apply (leaves_list _ good pa mn mx Hpa).
  - split; [exists p1|exists p2]; (split; [assumption|]); [rewrite P1; exact HP|rewrite P2, HP; reflexivity].
Qed.

(** If each action fails with probability 1 - q in every state, the run survives with the average of the powers of q. *)
Theorem C86_steady : forall A S O (step : A -> S -> option S) ok (start : O -> option S) mn mx po pa q, (mn <= mx)%Z -> (forall st, ok st = true) ->
  (forall st, prob pa (fun a => match step a st with Some _ => true | None => false end) == q) ->
  prob po anything == 1 -> leaves (fun x => exists o st, x = inl o /\ start o = Some st) po ->
  survival step ok start mn mx po pa == average mn mx (fun k => power q (Z.to_nat k)) /\
  (mn = 0%Z -> survival step ok start mn mx po pa * (inject_Z (mx + 1) * (1 - q)) == 1 - power q (Z.to_nat (mx + 1))).
Proof.
  intros A S O step ok start mn mx po pa q Hm Hok Hq Hp HL.
  assert (X : survival step ok start mn mx po pa == average mn mx (fun k => power q (Z.to_nat k))).
  { apply (sure_value _ _ _ _ _ Hp HL). intros x (o & st & -> & ->). apply average_ext. intros z _. apply outlasts_steady; auto. }
  split; [exact X|]. intros ->. rewrite X, average_powers, <- sum_powers. field. intros K. apply (width_pos 0 mx Hm). rewrite Z.sub_0_r. exact K.
Qed.
(** If a list that begins with actions of certain kinds fails, the run fails at least with the product of their probabilities, whenever it is long enough. *)
Theorem C86_begins : forall A S O (step : A -> S -> option S) ok (start : O -> option S) mn mx po pa evs (good : A -> Prop), (mn <= mx)%Z -> prob pa anything == 1 -> leaves good pa ->
  leaves (fun x => exists o, x = inl o /\ forall st, start o = Some st -> forall l, Forall good l -> begins evs l = true -> walksWell step ok l st = false) po ->
  survival step ok start mn mx po pa <= average mn mx (fun k => if (Z.of_nat (length evs) <=? k)%Z then 1 - product (map (prob pa) evs) else 1).
Proof.
  intros A S O step ok start mn mx po pa evs good Hm Hp Hg HL.
  assert (B : forall k, 0 <= (if (Z.of_nat (length evs) <=? k)%Z then 1 - product (map (prob pa) evs) else 1)).
  { intros k. destruct (Z.of_nat (length evs) <=? k)%Z; [|lra]. pose proof (begins_prob A pa evs Hp (length evs) (le_n _)) as X.
    pose proof (prob_le1 _ (times_plan (length evs) pa) (begins evs)). lra. }
  apply (sure_value_le _ _ po _ _ (average_ge0 mn mx _ Hm (fun z _ => B z)) HL). intros x (o & -> & Hst). destruct (start o) as [st|]; [|apply average_ge0; auto].
  apply average_le; [exact Hm|]. intros k Hk. destruct (Z.leb_spec (Z.of_nat (length evs)) k) as [L|L].
  - apply (outlasts_begins _ _ step ok good); [exact Hp|exact Hg|apply Hst; reflexivity|lia].
  - rewrite outlasts_well. apply prob_le1.
Qed.
(** If a failure takes more actions than the maximum, it is never found. *)
Theorem C86_never : forall A S O (step : A -> S -> option S) ok (start : O -> option S) mn mx po pa (good : A -> Prop), (0 <= mn)%Z -> (mn <= mx)%Z ->
  prob pa anything == 1 -> leaves good pa -> prob po anything == 1 ->
  leaves (fun x => exists o st, x = inl o /\ start o = Some st /\ forall l, Forall good l -> (Z.of_nat (length l) <= mx)%Z -> walksWell step ok l st = true) po ->
  survival step ok start mn mx po pa == 1.
Proof.
  intros A S O step ok start mn mx po pa good H0 Hm Hp Hg Hq HL. apply (sure_value _ _ _ _ _ Hq HL). intros x (o & st & -> & -> & Hw).
  rewrite (average_ext _ _ _ (fun _ => 1)); [apply average_const, Hm|]. intros z Hz. apply (outlasts_all _ _ step ok good); auto. intros l Hl Hn. apply Hw; auto. lia.
Qed.

(** ** Examples *)
Definition drawnAction {X} (f : Z -> X) (hi : Z) : forall E, gen E X := fun E => gbind (draw 0 hi) (fun z => gret (Node (f z) [])).
Definition drawnPlan {X} (f : Z -> X) (hi : Z) : plan X := Draws 0 hi (fun z => Ends (Ok (f z))).
Lemma drawn_law : forall X (f : Z -> X) hi, law (drawnAction f hi) (drawnPlan f hi).
Proof.
  intros X f hi E. apply (fits_bind' _ _ _ _ _ same root _ _ (Draws 0 hi (fun z => Ends (Ok z))) (fun z => Ends (Ok (f z)))); [apply fits_draw|]. intros z. apply fits_ret. reflexivity.
Qed.
Definition zeroObject : forall E, xgen E Z := fun E => gret (inl (elift (Node 0%Z []))).
Definition zeroPlan : plan (Z + err) := Ends (Ok (inl 0%Z)).
Lemma zero_follows : argumentFollows zeroObject zeroPlan.
Proof. intros E r. reflexivity. Qed.
Definition sameModel (o : Z) : eff unit (Z * unit) := eret (o, tt).
(** Three actions: one fails whatever the state, the others count. *)
Definition countOrFail (z : Z) : action Z unit unit := {| a_name := "count"; a_func := fun o m => if (z =? 0)%Z then ethrow EAssert else eret ((o + z)%Z, m) |}.
(** An action that counts, and fails at 200. *)
Definition countTo200 (z : Z) : action Z unit unit := {| a_name := "count"; a_func := fun o m => if (o =? 200)%Z then ethrow EAssert else eret ((o + 1)%Z, m) |}.
Definition counting (f : Z -> action Z unit unit) (runs : Z) : forall E, sprop E Z unit unit :=
  fun E => sconfigure (sconfigure (new_sprop (zeroObject E) sameModel (drawnAction f 2 E)) (SNumRuns runs)) (SMaxDurationMs 0).
Lemma branch_tame : forall (b : bool) (x : Z * unit), tame (W := unit) (if b then ethrow EAssert else eret x).
Proof. intros [|] x; [|apply tame_ret]. exists [], (inr EAssert). split; [reflexivity|]. split; discriminate. Qed.
(* two runs: a run passes with probability (1 - (2/3)^201)/67, so both do about once in 4489 times *)
Example C86_go_ex : forall (ev : setting) stale, (forall E, ord_call (ev E) = [1; 0]%nat) -> exists s, s * 67 == 1 - power (2 # 3) 201 /\
  likelyResult (fun E r => Ok (returnedTrue (fst (sgo 1 (starting r (ev E)) 1000 0 0 (stale E) (counting countOrFail 2 E) tt)))) negb (1 - power s 2).
Proof.
  intros ev stale Hord. eexists. split; cycle 1.
  - refine (proj2 (C86_go Z unit unit ev (counting countOrFail 2) zeroObject (drawnAction countOrFail 2) sameModel None (fun a => exists z, a = countOrFail z) zeroPlan (drawnPlan countOrFail 2)
      [1; 0]%nat 1000 0 0 stale 0 2 tt _ Hord _ zero_follows _ (drawn_law _ _ _) _ _ _ _)).
    + intros E. repeat split.
    + apply perm_swap.
    + cbn [zeroPlan leaves]. exists 0%Z. reflexivity.
    + cbn [drawnPlan leaves]. intros z _. exists z. reflexivity.
    + intros a o m [z ->]. apply branch_tame.
    + intros o. apply tame_ret.
    + discriminate.
  - match goal with |- ?s * _ == _ => pose proof (proj2 (C86_steady _ _ _ (actionStep tt) (checkOk tt None) (fun o => settles tt (sameModel o)) 0 200 zeroPlan (drawnPlan countOrFail 2) (2 # 3)
      ltac:(lia) (fun st => eq_refl) (fun st => Qeq_refl _) (Qeq_refl _) ltac:(cbn; eauto)) eq_refl) as X end.
    refine (Qeq_trans _ _ _ _ X). apply Qmult_comp; [apply Qeq_refl|]. reflexivity.
Qed.
(* one or two actions: (2/3 + 4/9) / 2 *)
Example C86_steady_ex : survival (actionStep tt) (checkOk tt None) (fun o => settles tt (sameModel o)) 1 2 zeroPlan (drawnPlan countOrFail 2) == 5 # 9.
Proof.
  refine (Qeq_trans _ _ _ (proj1 (C86_steady _ _ _ (actionStep tt) (checkOk tt None) (fun o => settles tt (sameModel o)) 1 2 zeroPlan (drawnPlan countOrFail 2) (2 # 3) _ _ _ _ _)) _).
  - lia.
  - reflexivity.
  - intros st. reflexivity.
  - reflexivity.
  - cbn [zeroPlan leaves]. exists 0%Z, (0%Z, tt). split; reflexivity.
  - vm_compute. reflexivity.
Qed.
(* the 201st action of a run would fail; it is never drawn *)
Lemma counts_up : forall l, Forall (fun a => exists z, a = countTo200 z) l -> forall o, (0 <= o)%Z -> (o + Z.of_nat (length l) <= 200)%Z ->
  walksWell (actionStep tt) (checkOk tt None) l (o, tt) = true.
Proof.
  intros l Hl. unfold walksWell. induction Hl as [|a l [z ->] Hl IH]; intros o H0 Ho; [reflexivity|]. cbn [walks]. unfold actionStep. cbn [fst snd countTo200 a_func]. cbn [length] in Ho.
  destruct (Z.eqb_spec o 200); [lia|]. unfold settles, eret. cbn [failed_expectations flat_map]. apply IH; lia.
Qed.
Example C86_never_ex : forall (ev : setting) stale, (forall E, ord_call (ev E) = [0; 1]%nat) ->
  likelyResult (fun E r => Ok (returnedTrue (fst (sgo 1 (starting r (ev E)) 1000 0 0 (stale E) (counting countTo200 1000000 E) tt)))) negb 0.
Proof.
  intros ev stale Hord.
  destruct (C86_go Z unit unit ev (counting countTo200 1000000) zeroObject (drawnAction countTo200 2) sameModel None (fun a => exists z, a = countTo200 z) zeroPlan (drawnPlan countTo200 2)
      [0; 1]%nat 1000 0 0 stale 0 (Z.to_nat 1000000) tt) as [_ (p & L & P)]; auto.
  - intros E. repeat split.
  - apply Permutation_refl.
  - apply zero_follows.
  - cbn [zeroPlan leaves]. exists 0%Z. reflexivity.
  - apply drawn_law.
  - cbn [drawnPlan leaves]. intros z _. exists z. reflexivity.
  - intros a o m [z ->]. apply branch_tame.
  - intros o. apply tame_ret.
  - discriminate.
  - exists p. split; [exact L|]. rewrite P.
    rewrite (power_ext _ 1); [rewrite power_one; reflexivity|]. apply (C86_never _ _ _ (actionStep tt) (checkOk tt None) (fun o => settles tt (sameModel o)) 0 200 zeroPlan (drawnPlan countTo200 2) (fun a => exists z, a = countTo200 z)); try lia.
    + reflexivity.
    + cbn [drawnPlan leaves]. intros z _. exists z. reflexivity.
    + reflexivity.
    + cbn [zeroPlan leaves]. exists 0%Z, (0%Z, tt). split; [reflexivity|]. split; [reflexivity|]. intros l Hl Hn. apply counts_up; auto; lia.
Qed.
(** Class-based: push and pop; pop is passed over on an empty stack, and is wrong with two elements. *)
Definition pushOrPop (z : Z) : caction Z unit unit :=
  if (z =? 0)%Z then {| c_pre2 := None; c_pre1 := None; c_run2 := None; c_run1 := Some (fun o => eret ((o + 1)%Z, true)) |}
  else {| c_pre2 := None; c_pre1 := Some (fun o => eret (0 <? o)%Z); c_run2 := None; c_run1 := Some (fun o => eret ((o - 1)%Z, negb (o =? 2)%Z)) |}.
Lemma pushOrPop_tame : forall a o m, (exists z, a = pushOrPop z) -> tame (precondition2 a o m) /\ tame (run2 a o m).
Proof.
  intros a o m [z ->]. unfold pushOrPop. destruct (z =? 0)%Z; split; try apply tame_ret; apply tame_bind; try apply tame_ret; intros [o' b]; apply tame_ret.
Qed.
(* up to three actions: fails on push, push, pop only: one of the eight lists of length three, and lengths are 0 to 3 *)
Example C86_class_ex : forall (ev : setting), (forall E, ord_call (ev E) = [1; 0]%nat) ->
  likelyResult (fun E r => Ok (returnedTrue (runForAll 1 (starting r (ev E))
    (classProperty 100 0 0 (Some sameModel) (zeroObject E) (arbi_vector (drawnAction pushOrPop 1 E) {| minSize := 0; maxSize := 3 |})) tt))) negb (1 - power (31 # 32) 100).
Proof.
  intros ev Hord.
  destruct (C86_class Z unit unit ev zeroObject (drawnAction pushOrPop 1) sameModel (fun a => exists z, a = pushOrPop z) zeroPlan (drawnPlan pushOrPop 1)
      [1; 0]%nat 100 0 0 0 3 tt) as [_ (p & L & P)]; auto; try lia.
  - apply perm_swap.
  - apply zero_follows.
  - cbn [zeroPlan leaves]. exists 0%Z. reflexivity.
  - apply drawn_law.
  - cbn [drawnPlan leaves]. intros z _. exists z. reflexivity.
  - vm_compute. discriminate.
  - apply pushOrPop_tame.
  - intros o. apply tame_ret.
  - exists p. split; [exact L|]. rewrite P. rewrite (power_ext _ (31 # 32)); [reflexivity|]. vm_compute. reflexivity.
Qed.
(* 7/8 pass with three actions, 13/16 with four *)
Example C86_class_no_model_ex : forall (ev : setting), (forall E, ord_call (ev E) = [0; 1]%nat) ->
  likelyResult (fun E r => Ok (returnedTrue (runForAll 1 (starting r (ev E))
    (classProperty 10 0 0 None (zeroObject E) (arbi_vector (drawnAction pushOrPop 1 E) {| minSize := 3; maxSize := 4 |})) tt))) negb (1 - power (27 # 32) 10).
Proof.
  intros ev Hord.
  destruct (C86_class_no_model Z unit unit ev zeroObject (drawnAction pushOrPop 1) (fun a => exists z, a = pushOrPop z) zeroPlan (drawnPlan pushOrPop 1)
      [0; 1]%nat 10 0 0 3 4 tt) as [_ (p & L & P)]; auto; try lia.
  - apply Permutation_refl.
  - apply zero_follows.
  - cbn [zeroPlan leaves]. exists 0%Z. reflexivity.
  - apply drawn_law.
  - cbn [drawnPlan leaves]. intros z _. exists z. reflexivity.
  - vm_compute. discriminate.
  - intros a o [z ->]. unfold pushOrPop. destruct (z =? 0)%Z; split; apply tame_ret.
  - exists p. split; [exact L|]. rewrite P. rewrite (power_ext _ (27 # 32)); [reflexivity|]. vm_compute. reflexivity.
Qed.
Definition isPush (a : caction Z unit unit) : bool := match c_pre1 a with None => true | Some _ => false end.
Example C86_begins_ex : survival (classStep tt) accepts (fun o => settles tt (sameModel o)) 0 200 zeroPlan (drawnPlan pushOrPop 1) <= 1 - (198 # 201) * (1 # 8).
Proof.
  pose proof (C86_begins _ _ _ (classStep tt) accepts (fun o => settles tt (sameModel o)) 0 200 zeroPlan (drawnPlan pushOrPop 1)
    [isPush; isPush; fun a => negb (isPush a)] (fun a => exists z, a = pushOrPop z)) as X.
  eapply Qle_trans; [apply X|vm_compute; discriminate].
  - lia.
  - reflexivity.
  - cbn [drawnPlan leaves]. intros z _. exists z. reflexivity.
  - cbn [zeroPlan leaves]. exists 0%Z. split; [reflexivity|]. intros st E l Hl Hb. vm_compute in E. inversion E; subst.
    destruct Hl as [|a l [z1 ->] Hl]; [discriminate|]. destruct Hl as [|b l [z2 ->] Hl]; [cbn in Hb; rewrite andb_false_r in Hb; discriminate|].
    destruct Hl as [|c l [z3 ->] Hl]; [cbn in Hb; rewrite !andb_false_r in Hb; discriminate|].
    unfold pushOrPop in *. destruct (z1 =? 0)%Z; [|discriminate]. destruct (z2 =? 0)%Z; [|discriminate]. destruct (z3 =? 0)%Z; [discriminate|]. reflexivity.
Qed.

Print Assumptions C86_go.
Print Assumptions C86_class.
Print Assumptions C86_class_no_model.
Print Assumptions C86_steady.
Print Assumptions C86_begins.
Print Assumptions C86_never.
