(** C83: how often shrinking calls the property when arguments come from dependent generators. *)
From Coq Require Import String List ZArith Lia Bool Permutation.
From Verif Require Import Base TreeModel TreeSpec TreeProof RandomModel TupleModel TupleProof BinSearchProof IntegralModel IntegralSpec IntegralProof
  ListModel ListSpec ListProof ListMainProof ContainerModel ContainerProof GenModel EffModel EffSpec EffProof ContextModel RunnerModel RunnerSpec RunnerProof RunnerShrinkProof
  SearchSpec SearchProof PropSearch ListSearchSpec MinimalSpec MinimalProof PropRun PropInt PropEff StatefulModel PropStateful EffortSpec EffortProof PropEffort DepEffortSpec DepEffortProof.
Import ListNotations.
Local Open Scope nat_scope.

(** * C83: calls made by shrinking, with dependent generators *)

(** ** Trees and generators *)

(** For trees that do not draw the notion is that of C82. *)
Theorem C83_pure : forall E A (t : tree A) k, inhabited (rst E) -> (within k t <-> ewithin (E := E) k (elift t)).
Proof. intros E A t k [r]. split; [apply elift_within|]. intros H n Hn. apply H. apply search_elift; auto. Qed.
Example C83_pure_ex : ewithin (E := replay) 8 (elift tree100).
Proof. apply C83_pure; [exact (inhabits ([] : rst replay))|exact (proj1 worst100)]. Qed.

(** The pairs of [dependency] (pairWith), the tuples of [chain] and the values of [derive] (flatMap): what the first value takes and what one of the second generators takes. *)
Theorem C83_dependent : forall E (j k : nat),
  (forall T U (g1 : egen E T) (g2 : T -> egen E U), eeffort j g1 -> (forall r t r' u, g1 r = Ok (t, r') -> ereach t u -> eeffort k (g2 (eroot u))) ->
     eeffort (j + k) (dependency g1 g2) /\ eeffort (j + k) (derive g1 g2)) /\
  (forall V (g1 : egen E V) (g2 : V -> egen E V), eeffort j g1 -> (forall r t r' u, g1 r = Ok (t, r') -> ereach t u -> eeffort k (g2 (eroot u))) -> eeffort (j + k) (chain g1 g2)) /\
  (forall V (g1 : egen E (list V)) (g2 : list V -> egen E V), eeffort j g1 -> (forall r t r' u, g1 r = Ok (t, r') -> ereach t u -> eeffort k (g2 (eroot u))) ->
     eeffort (j + k) (chainMore g1 g2)).
Proof.
  intros E j k. split; [|split].
  - intros T U g1 g2 Hj Hk. split; apply dependent_effort; auto.
  - intros V g1 g2 Hj Hk. apply dependent_effort; auto.
  - intros V g1 g2 Hj Hk. apply dependent_effort; auto.
Qed.
(** A number up to 3 with another one up to the first: 3 calls for each. *)
Lemma int_effort : forall ty min max k, usable ty min max -> (max - min <= 2 ^ Z.of_nat k)%Z -> eeffort (E := replay) (S k) (liftGen (interval ty min max)).
Proof. intros ty min max k Hu Hk r t r' H. apply liftGen_ok in H. destruct H as [u [H ->]]. apply elift_within. eapply (proj1 (C82_generators replay) ty min max k); eauto. Qed.
Lemma small_range : forall (r : rst replay) t r' u, small r = Ok (t, r') -> ereach t u -> (0 <= eroot u <= 3)%Z.
Proof.
  intros r t r' u H Hu. apply liftGen_ok in H. destruct H as [w [H ->]]. destruct (elift_reach _ _ _ _ Hu _ eq_refl) as [v [Hv ->]]. rewrite elift_root.
  destruct (C09_reachable_values replay TI32 0 3 r r' w (root v)) as [_ [_ Hin]]; auto; try lia; try (intros [? _]; discriminate); try (unfold tmin, tmax; cbn; lia).
  apply Hin. apply reach_values; eauto.
Qed.
Example C83_dependent_ex : eeffort (E := replay) 6 (dependency small upto).
Proof.
  apply (proj1 (C83_dependent replay 3 3)); [apply (int_effort TI32 0 3 2); [unfold usable, tmin, tmax; cbn; lia|cbn; lia]|].
  intros r t r' u H Hu. pose proof (small_range _ _ _ _ H Hu). apply (int_effort TI32 0 (eroot u) 2); [unfold usable, tmin, tmax; cbn; lia|cbn; lia].
Qed.

Lemma size_effort : forall E min max c, (0 <= min <= max)%Z -> (max <= Base.UINT64_MAX)%Z -> (max - min <= 2 ^ Z.of_nat c)%Z -> eeffort (E := E) (S c) (liftGen (interval TU64 min max)).
Proof.
  intros E min max c H1 H2 H3 r t r' H. apply liftGen_ok in H. destruct H as [u [H ->]]. apply elift_within.
  eapply (proj1 (C82_generators E) TU64 min max c); [unfold usable, tmin, tmax; cbn; unfold Base.UINT64_MAX in *; lia|exact H3|exact H].
Qed.

(** [aggregate]: the number of steps, when it can be chosen among at most 2^c + 1, takes c + 1; the value as much as one step. *)
Theorem C83_aggregate : forall E T (g1 : egen E T) (g2 : T -> egen E T) min max c k, (0 <= min <= max)%Z -> (max <= Base.UINT64_MAX)%Z -> (max - min <= 2 ^ Z.of_nat c)%Z ->
  eeffort k g1 -> (forall x, eeffort k (g2 x)) -> eeffort (S c + k) (aggregate g1 g2 min max).
Proof.
  intros E T g1 g2 min max c k H1 H2 H3 Hk Hg. apply dependent_effort; [apply size_effort; auto|]. intros r tT r' u _ _ q v q' H.
  apply gbind_ok in H. destruct H as [t0 [q1 [X1 X2]]]. eapply aggregateSteps_effort; [|exact Hg|exact X2]. eapply Hk; eauto.
Qed.
Definition step {E} (x : Z) : egen E Z := liftGen (interval TI32 (x mod 10) (x mod 10 + 2)).
Lemma step_effort : forall x, eeffort (E := replay) 3 (step x).
Proof. intros x. pose proof (Z.mod_pos_bound x 10 ltac:(lia)). apply (int_effort TI32 (x mod 10) (x mod 10 + 2) 2); [unfold usable, tmin, tmax; cbn; lia|cbn; lia]. Qed.
Lemma small_effort : eeffort (E := replay) 3 small.
Proof. apply (int_effort TI32 0 3 2); [unfold usable, tmin, tmax; cbn; lia|cbn; lia]. Qed.
Example C83_aggregate_ex : eeffort (E := replay) 6 (aggregate small step 1 5).
Proof. apply (C83_aggregate replay Z small step 1 5 2 3); [lia|unfold Base.UINT64_MAX; lia|cbn; lia|exact small_effort|exact step_effort]. Qed.

(** [accumulate]: the number of elements is shrunk twice, by the size and by the list; of the elements only the last one is shrunk, and only a step. *)
Theorem C83_accumulate : forall E T (g1 : egen E T) (g2 : T -> egen E T) min max c k, (0 <= min <= max)%Z -> (max <= INT64_MAX)%Z -> (max - min <= 2 ^ Z.of_nat c)%Z ->
  eeffort k g1 -> (forall x, eeffort k (g2 x)) -> eeffort (S c + (S c + k)) (accumulate g1 g2 min max).
Proof.
  intros E T g1 g2 min max c k H1 H2 H3 Hk Hg. assert (H2' : (max <= Base.UINT64_MAX)%Z) by (unfold INT64_MAX, Base.UINT64_MAX in *; lia).
  apply dependent_effort; [apply size_effort; auto|]. intros r tT r' u K1 K2 q v q' H. pose proof (size_range _ _ _ _ _ _ _ H1 H2' K1 K2) as Hsz. cbv beta in H.
  destruct (Z.eqb_spec (eroot u) 0) as [Ez|Ez].
  - inversion H; subst. intros n [q1 [st [q2 [X1 X2]]]]. inversion X1; subst. inversion X2; subst. lia.
  - apply gbind_ok in H. destruct H as [t0 [rb [K6 K3]]]. apply gbind_ok in K3. destruct K3 as [vec [rc [K7 K3]]].
    apply gbind_ok in K3. destruct K3 as [lens [rd [K9 K3]]]. apply gbind_ok in K3. destruct K3 as [t [re [K10 K3]]]. inversion K3; subst v re. clear K3.
    destruct (accumulateSteps_effort _ _ _ k _ _ _ _ _ K7 (Hk _ _ _ K6) Hg) as [HF Hl].
    unfold gfail in K9. destruct (shrinkListLikeLength vec min) as [lens'| | |] eqn:L1; try discriminate. inversion K9; subst lens' rd. clear K9.
    rewrite <- (Z2Nat.id min) in L1 by lia. apply (longest_length _ _ _ _ c) in L1; [|unfold size; lia|lia|lia]. destruct L1 as [L1 L2].
    intros n Hn. apply emap_search in Hn. revert n Hn. change (ewithin (S c + k) t). eapply eandThen_within; [exact K10|apply elift_within; apply within_iff; exact L1|].
    intros w p st p' n Hw Hs Hn. eapply shrinkLast_search; [exact Hs| |exact Hn]. destruct (elift_reach _ _ _ _ Hw _ eq_refl) as [y [Hy ->]]. rewrite elift_root.
    rewrite Forall_forall in *. intros x Hx. apply HF. eapply L2; [|exact Hx]. apply reach_root_in. exact Hy.
Qed.
Example C83_accumulate_ex : eeffort (E := replay) 9 (accumulate small step 1 5).
Proof. apply (C83_accumulate replay Z small step 1 5 2 3); [lia|unfold INT64_MAX; lia|cbn; lia|exact small_effort|exact step_effort]. Qed.

(** ** Calls of the property *)

(** Generators whose trees do not draw are counted as in C82, dependent ones as above. *)
Theorem C83_arguments : forall E V,
  (forall k (f : xgen E V), arg_effort k f -> earg_effort k f) /\
  (forall A (inj : A -> V) (g : egen E A) k, eeffort k g -> earg_effort k (arg_gen inj (gbind g (fun t => gret (inl t))))).
Proof.
  intros E V. split.
  - intros k f Hf r x r' H. destruct (Hf _ _ _ H) as [t [-> Ht]]. apply elift_within. exact Ht.
  - intros A inj g k Hg r x r' H. unfold arg_gen in H. apply gbind_ok in H. destruct H as [y [r1 [H1 H]]]. apply gbind_ok in H1. destruct H1 as [t [r2 [H1 H2]]].
    inversion H2; subst. inversion H; subst. intros n Hn. apply emap_search in Hn. eapply Hg; eauto.
Qed.
Definition depArg : xgen replay (Z * Z) := arg_gen (fun p => p) (gbind (dependency small upto) (fun t => gret (inl t))).
Example C83_arguments_ex : earg_effort 6 depArg.
Proof. apply (proj2 (C83_arguments replay (Z * Z))). exact C83_dependent_ex. Qed.

(** As C82_calls and C82_run. *)
Theorem C83_calls : forall E V W ev (P : property E V W) s rep s' ks, order (length (gens P)) (ord_each ev) -> Forall2 earg_effort ks (gens P) ->
  shrink ev P s = Ok (rep, s') -> ncalls (lg s') <= ncalls (lg s) + list_sum ks.
Proof. exact shrink_ecalls. Qed.
(** A property answering by the number of the call.  From 3, 2: 0, 0 passes, 1, 0 throws and has no shrinks left. *)
Definition moody : property replay (Z * Z) nat :=
  {| func := fun a n => ([], if Nat.eqb n 1 then URet false else if Nat.eqb n 3 then UThrow EOther else URet (negb (Nat.eqb n 5)), S n); gens := [depArg];
     onStartup := None; onCleanup := None; numRuns := 5; maxDurationMs := 0; seed := 1 |}.
Lemma moody_args : Forall2 earg_effort [6] (gens moody).
Proof. constructor; [exact C83_arguments_ex|constructor]. Qed.
Example C83_calls_ex : order (length (gens moody)) (ord_each (inOrder 1 [])) /\ Forall2 earg_effort [6] (gens moody) /\
  match shrink (inOrder 1 []) moody {| rnd := ([3; 2; 2; 2; 2; 1]%Z : rst replay); cx := newctx; wd := 2; lg := [] |} with
  | Ok (rep, s') => ncalls (lg s') = 2 /\ with_args rep = [(3, 2)%Z] /\ simplest_args rep = [(1, 0)%Z]
  | _ => False
  end.
Proof. split; [exact order1|]. split; [exact moody_args|vm_compute; auto]. Qed.

Theorem C83_run : forall E V W fuel ev (P : property E V W) w v s' ks, order (length (gens P)) (ord_each ev) -> Forall2 earg_effort ks (gens P) ->
  runForAll fuel ev P w = Ok (v, s') ->
  exists js s0, history ev P {| rnd := seeded ev (seed P); cx := newctx; wd := w; lg := [] |} js s0 /\
    match v with
    | VFalsified n _ _ => n = S (passes js) /\ (ncalls (lg s') <= S (length js) + list_sum ks)%nat
    | _ => s' = s0 /\ (ncalls (lg s') <= length js)%nat
    end.
Proof.
  intros E V W fuel ev P w v s' ks Ho HF H. unfold runForAll in H. apply runLoop_ok in H. destruct v as [sm|k sm|t why rep].
  - destruct H as [_ [js [H _]]]. exists js, s'. split; auto. split; auto. apply history_calls in H. auto.
  - destruct H as [_ [js [H _]]]. exists js, s'. split; auto. split; auto. apply history_calls in H. auto.
  - destruct H as [js [s0 [s1 [H [Hf [_ [Ht [_ Hs]]]]]]]]. exists js, s0. split; auto. split; auto.
    apply history_calls in H. apply falsifies_calls in Hf. apply C83_calls with (ks := ks) in Hs; auto. change (lg (with_rnd (rnd s0) s1)) with (lg s1) in Hs. cbn [lg ncalls] in H. simpl in H. lia.
Qed.
Example C83_run_ex : match runForAll 5 (inOrder 1 [1; 0; 3; 2; 2; 2; 2; 1; 1; 1; 2; 2]%Z) moody 0 with
  | Ok (VFalsified n why rep, s') => n = 2 /\ ncalls (lg s') = 5 /\ args_of (lg s') = [[(1, 0)]; [(2, 2)]; [(0, 0)]; [(1, 1)]; [(1, 0)]]%Z /\ simplest_args rep = [(1, 1)%Z]
  | _ => False
  end.
Proof. vm_compute. auto 10. Qed.

Print Assumptions C83_pure.
Print Assumptions C83_dependent.
Print Assumptions C83_aggregate.
Print Assumptions C83_accumulate.
Print Assumptions C83_arguments.
Print Assumptions C83_calls.
Print Assumptions C83_run.
