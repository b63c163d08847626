(** Programs with generator objects: simulation, frame, settings. *)
From Coq Require Import List ZArith Bool Lia Arith.
From Verif Require Import Base TreeModel TupleModel RandomModel ListModel ContainerModel GenModel SettingsModel SettingsSpec BitmapProof.
Import ListNotations.

(** ** Simulation of computations on two engines. *)
Definition same {A S1 S2} (R : S1 -> S2 -> Prop) (x : res (A * S1)) (y : res (A * S2)) : Prop :=
  match x, y with
  | Ok (a, s1), Ok (b, s2) => a = b /\ R s1 s2
  | UB, UB => True
  | Throw e, Throw e' => e = e'
  | OutOfFuel, OutOfFuel => True
  | _, _ => False
  end.
Definition sim {E1 E2 A} (R : rst E1 -> rst E2 -> Prop) (g1 : G E1 A) (g2 : G E2 A) : Prop := forall s1 s2, R s1 s2 -> same R (g1 s1) (g2 s2).
Definition drawsAlike {E1 E2} (R : rst E1 -> rst E2 -> Prop) : Prop :=
  forall a b s1 s2, R s1 s2 -> fst (unif E1 a b s1) = fst (unif E2 a b s2) /\ R (snd (unif E1 a b s1)) (snd (unif E2 a b s2)).

Section Sim.
Context {E1 E2 : engine} (R : rst E1 -> rst E2 -> Prop).

Lemma sim_gret : forall A (a : A), sim R (gret a) (gret a).
Proof. intros A a s1 s2 H. split; auto. Qed.
Lemma sim_gfail : forall A (x : res A), sim R (gfail x) (gfail x).
Proof. intros A x s1 s2 H. unfold gfail. destruct x; simpl; auto. Qed.
Lemma sim_gbind : forall A B (g1 : G E1 A) (g2 : G E2 A) (f1 : A -> G E1 B) (f2 : A -> G E2 B),
  sim R g1 g2 -> (forall a, sim R (f1 a) (f2 a)) -> sim R (gbind g1 f1) (gbind g2 f2).
Proof.
  intros A B g1 g2 f1 f2 Hg Hf s1 s2 HR. specialize (Hg s1 s2 HR). unfold gbind.
  destruct (g1 s1) as [[a t1]| | |], (g2 s2) as [[b t2]| | |]; simpl in Hg; try contradiction; auto.
  destruct Hg as [-> Ht]. apply Hf; auto.
Qed.
Lemma sim_fail : forall A, sim R (fun _ => @OutOfFuel (A * rst E1)) (fun _ => OutOfFuel).
Proof. intros A s1 s2 H. exact I. Qed.

Hypothesis RD : drawsAlike R.
Lemma sim_draw : forall a b, sim R (draw a b) (draw a b).
Proof.
  intros a b s1 s2 H. unfold draw. destruct (a <=? b)%Z; simpl; auto. destruct (RD a b s1 s2 H) as [R1 R2].
  destruct (unif E1 a b s1), (unif E2 a b s2); simpl in *; auto.
Qed.
Lemma sim_times : forall A n (g1 : G E1 A) (g2 : G E2 A), sim R g1 g2 -> sim R (times n g1) (times n g2).
Proof.
  induction n as [|n IH]; intros g1 g2 Hg; cbn [times]; [apply sim_gret|].
  apply sim_gbind; auto. intros x. apply sim_gbind; auto. intros xs. apply sim_gret.
Qed.
Lemma sim_fillSet : forall A fuel lt (g1 : gen E1 A) (g2 : gen E2 A) n acc, sim R g1 g2 -> sim R (fillSet fuel lt g1 n acc) (fillSet fuel lt g2 n acc).
Proof.
  induction fuel as [|fuel IH]; intros lt g1 g2 n acc Hg; cbn [fillSet]; destruct (size acc <? n)%Z; try apply sim_gret; try apply sim_fail.
  apply sim_gbind; auto.
Qed.
Lemma sim_filterGen : forall A fuel (g1 : gen E1 A) (g2 : gen E2 A) crit, sim R g1 g2 -> sim R (filterGen fuel g1 crit) (filterGen fuel g2 crit).
Proof.
  induction fuel as [|fuel IH]; intros g1 g2 crit Hg; cbn [filterGen]; [apply sim_fail|].
  apply sim_gbind; auto. intros t. destruct (crit (root t)); [apply sim_gfail|auto].
Qed.
Lemma sim_transformGen : forall A B (g1 : gen E1 A) (g2 : gen E2 A) (f : A -> B), sim R g1 g2 -> sim R (transformGen g1 f) (transformGen g2 f).
Proof. intros A B g1 g2 f Hg. apply sim_gbind; auto. intros t. apply sim_gret. Qed.
Lemma sim_container : forall V (seq : list V -> V) seq2 lt fuel k (a1 b1 : gen E1 V) (a2 b2 : gen E2 V) z, sim R a1 a2 -> sim R b1 b2 ->
  sim R (container seq seq2 lt fuel k a1 b1 z) (container seq seq2 lt fuel k a2 b2 z).
Proof.
  intros V seq seq2 lt fuel k a1 b1 a2 b2 z Ha Hb. destruct k; cbn [container]; apply sim_transformGen;
    unfold arbi_vector, arbi_string, arbi_set, arbi_map; apply sim_gbind; try apply sim_draw; intros n; apply sim_gbind;
    try (apply sim_times; auto); try (apply sim_fillSet; auto); intros l; try apply sim_gfail.
  apply sim_gbind; [apply sim_times; auto|]. intros e. apply sim_gfail.
Qed.
End Sim.

(** ** The shape of a callable: all but the states of the user's callables. *)
Fixpoint erase {V U} (f : fn V U) : fn V unit :=
  match f with
  | FEmpty => FEmpty
  | FUser c _ => FUser c tt
  | FArbi k z g0 g1 => FArbi k z (erase g0) (erase g1)
  | FPtr l => FPtr l
  | FRef l => FRef l
  | FDerive l d => FDerive l d
  end.
Definition shape {V U} (h : heap V U) : list (option (fn V unit)) := map (option_map erase) h.

(** Pointers of a callable. *)
Fixpoint points {V U} (P : loc -> Prop) (f : fn V U) : Prop :=
  match f with
  | FEmpty | FUser _ _ => True
  | FArbi _ _ g0 g1 => points P g0 /\ points P g1
  | FPtr l | FRef l | FDerive l _ => P l
  end.
Lemma points_erase : forall V U P (f : fn V U), points P (erase f) <-> points P f.
Proof. induction f; simpl; tauto. Qed.
Lemma points_shape : forall V U U' P (f : fn V U) (f' : fn V U'), erase f = erase f' -> points P f -> points P f'.
Proof. intros V U U' P f f' H Hp. apply points_erase. rewrite <- H. apply points_erase. auto. Qed.
Lemma owned_points : forall V U P (f : fn V U), owned f -> points P f.
Proof. induction f; simpl; tauto. Qed.
Lemma owned_erase : forall V U (f : fn V U), owned (erase f) <-> owned f.
Proof. induction f; simpl; tauto. Qed.

Lemma shape_len : forall V U (h h' : heap V U), shape h = shape h' -> length h = length h'.
Proof. intros V U h h' H. apply (f_equal (@length _)) in H. unfold shape in H. rewrite !map_length in H. auto. Qed.
Lemma shape_nth : forall V U (h h' : heap V U) l, shape h = shape h' -> option_map (option_map erase) (nth_error h l) = option_map (option_map erase) (nth_error h' l).
Proof. intros V U h h' l H. unfold shape in H. rewrite <- !nth_error_map. rewrite H. auto. Qed.
Lemma shape_set : forall V U (h : heap V U) l (g g' : fn V U), nth_error h l = Some (Some g) -> erase g' = erase g -> shape (set_nth l (Some g') h) = shape h.
Proof.
  intros V U h l g g'. unfold shape. revert l. induction h as [|x h IH]; destruct l; simpl; intros H He; try discriminate.
  - inversion H; subst. simpl. rewrite He. auto.
  - f_equal. auto.
Qed.
Lemma shape_some : forall V U (h h' : heap V U) l g, shape h = shape h' -> nth_error h l = Some (Some g) -> exists g', nth_error h' l = Some (Some g') /\ erase g' = erase g.
Proof.
  intros V U h h' l g H Hg. pose proof (shape_nth _ _ _ _ l H) as E. rewrite Hg in E. simpl in E.
  destruct (nth_error h' l) as [[g'|]|]; simpl in E; try discriminate. exists g'. split; auto. congruence.
Qed.
Lemma shape_none : forall V U (h h' : heap V U) l, shape h = shape h' -> nth_error h l = Some None -> nth_error h' l = Some None.
Proof.
  intros V U h h' l H Hg. pose proof (shape_nth _ _ _ _ l H) as E. rewrite Hg in E. simpl in E.
  destruct (nth_error h' l) as [[g'|]|]; simpl in E; try discriminate. auto.
Qed.

Section Calls.
Context {E : engine} {V U : Type} (user : nat -> U -> G E (tree V * U)) (seq : list V -> V) (seq2 : list (V * V) -> V) (lt : V -> V -> bool).
Notation call := (call user seq seq2 lt).
Notation inPlace := (@inPlace E V U).

(** Calls change states of the user's callables only. *)
Definition keepsShape (f : fn V U -> G (ext E (heap V U)) (tree V * fn V U)) : Prop :=
  forall g s t g' s', f g s = Ok ((t, g'), s') -> erase g' = erase g /\ shape (snd s') = shape (snd s).

Lemma inPlace_shape : forall f, keepsShape f -> forall l s t s', inPlace f l s = Ok (t, s') -> shape (snd s') = shape (snd s).
Proof.
  intros f Hf l s t s' H. unfold SettingsModel.inPlace in H. destruct (nth_error (snd s) l) as [[g|]|] eqn:El; try discriminate.
  destruct (f g s) as [[[t0 g'] [r h]]| | |] eqn:Ef; try discriminate. simpl in H. inversion H; subst. clear H. simpl.
  destruct (Hf _ _ _ _ _ Ef) as [E1 E2]. simpl in E2.
  destruct (shape_some _ _ _ _ _ _ (eq_sym E2) El) as [g2 [E3 E4]]. rewrite (shape_set _ _ _ _ g2); auto. congruence.
Qed.

Lemma ext_draws : forall (E0 : engine) X (I : X -> Prop), @drawsAlike (ext E0 X) (ext E0 X) (fun s1 s2 => s1 = s2 /\ I (snd s1)).
Proof.
  intros E0 X I a b s1 s2 [-> H]. split; auto. split; auto. simpl. destruct (unif E0 a b (fst s2)). auto.
Qed.
Lemma ext2_draws : forall (E0 : engine) X Y (I : X -> Y -> Prop),
  @drawsAlike (ext (ext E0 X) Y) (ext (ext E0 X) Y) (fun s1 s2 => s1 = s2 /\ I (snd (fst s1)) (snd s1)).
Proof.
  intros E0 X Y I a b s1 [[r x] y] [-> H]. split; auto. split; auto. cbn. destruct (unif E0 a b r) as [z r']. cbn. exact H.
Qed.

(** What every step keeps is kept. *)
Lemma keeps_gen : forall (E0 : engine) A (I : rst E0 -> Prop) (g : G E0 A), sim (fun s1 s2 => s1 = s2 /\ I s1) g g ->
  forall s a s', I s -> g s = Ok (a, s') -> I s'.
Proof. intros E0 A I g Hs s a s' Hi H. specialize (Hs s s (conj eq_refl Hi)). rewrite H in Hs. simpl in Hs. tauto. Qed.
Lemma gen_keeps : forall (E0 : engine) A (I : rst E0 -> Prop) (g : G E0 A), (forall s a s', I s -> g s = Ok (a, s') -> I s') ->
  sim (fun s1 s2 => s1 = s2 /\ I s1) g g.
Proof. intros E0 A I g Hs s1 s2 [-> Hi]. destruct (g s2) as [[a s']| | |] eqn:Eg; simpl; auto. split; auto. split; auto. eauto. Qed.

Lemma container_keeps : forall n k z (I : heap V U -> fn V U * fn V U -> Prop),
  (forall second s p t s' p', I (snd s) p -> member (call n) second (s, p) = Ok (t, (s', p')) -> I (snd s') p') ->
  forall s p t s' p', I (snd s) p -> container seq seq2 lt n k (member (call n) false) (member (call n) true) z (s, p) = Ok (t, (s', p')) -> I (snd s') p'.
Proof.
  intros n k z I HM s p t s' p' HI H.
  refine (keeps_gen (ext (ext E (heap V U)) (fn V U * fn V U)) _ (fun q => I (snd (fst q)) (snd q)) _ _ (s, p) t (s', p') HI H).
  apply sim_container; [apply ext2_draws| |]; apply gen_keeps; intros [s0 p0] t1 [s1 p1] J0 J1; exact (HM _ _ _ _ _ _ J0 J1).
Qed.

Lemma derive_keeps : forall n l d (I : heap V U -> Prop), (forall s t s', I (snd s) -> inPlace (call n) l s = Ok (t, s') -> I (snd s')) ->
  forall s t f' s', I (snd s) -> call (S n) (FDerive l d) s = Ok ((t, f'), s') -> f' = FDerive l d /\ I (snd s').
Proof.
  intros n l d I HI s t f' s' Hs H.
  assert (HS : sim (fun s1 s2 : rst (ext E (heap V U)) => s1 = s2 /\ I (snd s1)) (inPlace (call n) l) (inPlace (call n) l)).
  { apply (gen_keeps (ext E (heap V U)) _ (fun q => I (snd q))). intros s0 a s1 J0 J1. eauto. }
  assert (HD : forall g : gen (ext E (heap V U)) V, sim (fun s1 s2 : rst (ext E (heap V U)) => s1 = s2 /\ I (snd s1)) g g ->
      gbind g (fun t => gret (t, FDerive l d)) s = Ok (t, f', s') -> f' = FDerive l d /\ I (snd s')).
  { intros g Hg Hb. unfold gbind in Hb. destruct (g s) as [[t0 s0]| | |] eqn:Ei; try discriminate. inversion Hb; subst. split; auto.
    exact (keeps_gen (ext E (heap V U)) _ (fun q => I (snd q)) g Hg s t s' Hs Ei). }
  cbn [SettingsModel.call] in H. destruct d as [f0|crit].
  - refine (HD _ _ H). apply sim_transformGen. auto.
  - refine (HD _ _ H). apply sim_filterGen. auto.
Qed.

Lemma call_shape : forall n, keepsShape (call n).
Proof.
  induction n as [|n IH]; intros f s t f' s' H; [discriminate|]. cbn [SettingsModel.call] in H.
  assert (HP : forall l t0 s0 s1, inPlace (call n) l s0 = Ok (t0, s1) -> shape (snd s1) = shape (snd s0)) by (intros; eapply inPlace_shape; eauto).
  destruct f as [|c u|k z g0 g1|l|l|l d].
  - discriminate.
  - destruct (user c u (fst s)) as [[[t0 u'] r]| | |]; simpl in H; inversion H; subst. simpl. auto.
  - match type of H with bind ?X _ = _ => destruct X as [[t0 [s0 [a b]]]| | |] eqn:Ec; try discriminate end. simpl in H. inversion H; subst. clear H.
    pose (I := fun (h : heap V U) (p : fn V U * fn V U) => shape h = shape (snd s) /\ erase (fst p) = erase g0 /\ erase (snd p) = erase g1).
    assert (HI : I (snd s') (a, b)).
    { refine (container_keeps n k z I _ s (g0, g1) t s' (a, b) _ Ec); [|split; simpl; auto].
      intros second s0 [x y] t1 s1 [x1 y1] [J1 [J2 J3]] J. simpl in J, J2, J3. destruct second.
      - destruct (call n y s0) as [[[t2 z2] s2]| | |] eqn:E2; try discriminate. simpl in J. inversion J; subst. clear J.
        destruct (IH _ _ _ _ _ E2) as [K1 K2]. split; [congruence|]. simpl. split; congruence.
      - destruct (call n x s0) as [[[t2 z2] s2]| | |] eqn:E2; try discriminate. simpl in J. inversion J; subst. clear J.
        destruct (IH _ _ _ _ _ E2) as [K1 K2]. split; [congruence|]. simpl. split; congruence. }
    destruct HI as [J1 [J2 J3]]. simpl in J2, J3. split; auto. simpl. congruence.
  - unfold gbind in H. destruct (inPlace (call n) l s) as [[t0 s0]| | |] eqn:Ei; try discriminate. inversion H; subst. split; auto. eapply HP; eauto.
  - unfold gbind in H. destruct (inPlace (call n) l s) as [[t0 s0]| | |] eqn:Ei; try discriminate. inversion H; subst. split; auto. eapply HP; eauto.
  - destruct (derive_keeps n l d (fun h => shape h = shape (snd s))) with (s := s) (t := t) (f' := f') (s' := s') as [-> J]; auto.
    intros s0 t0 s1 J0 J1. rewrite (HP _ _ _ _ J1). auto.
Qed.

(** ** Frame: calls of callables that do not point into a region leave it alone. *)
Definition outside (K : loc -> Prop) : loc -> Prop := fun l => ~ K l.
Definition apart (K : loc -> Prop) (h : heap V U) : Prop := forall l f, ~ K l -> nth_error h l = Some (Some f) -> points (outside K) f.
Definition closed (K : loc -> Prop) (h : heap V U) : Prop := forall l f, K l -> nth_error h l = Some (Some f) -> points K f.
Definition agree (K : loc -> Prop) (h h' : heap V U) : Prop := forall l, K l -> nth_error h l = nth_error h' l.

Lemma apart_shape : forall K h h', shape h = shape h' -> apart K h -> apart K h'.
Proof.
  intros K h h' Hs Ha l f Hl Hf. destruct (shape_some _ _ _ _ _ _ (eq_sym Hs) Hf) as [g [G1 G2]]. eapply points_shape; [exact G2|eauto].
Qed.
Lemma closed_shape : forall K h h', shape h = shape h' -> closed K h -> closed K h'.
Proof.
  intros K h h' Hs Ha l f Hl Hf. destruct (shape_some _ _ _ _ _ _ (eq_sym Hs) Hf) as [g [G1 G2]]. eapply points_shape; [exact G2|eauto].
Qed.

Definition stays (K : loc -> Prop) (h0 h : heap V U) : Prop := agree K h0 h /\ apart K h.

Lemma call_frame : forall K n f s t f' s', points (outside K) f -> apart K (snd s) -> call n f s = Ok ((t, f'), s') -> agree K (snd s) (snd s').
Proof.
  intros K. induction n as [|n IH]; intros f s t f' s' Hp Ha H; [discriminate|].
  assert (HP : forall l s0 t0 s1, ~ K l -> stays K (snd s) (snd s0) -> inPlace (call n) l s0 = Ok (t0, s1) -> stays K (snd s) (snd s1)).
  { intros l s0 t0 s1 Hl [A1 A2] J. pose proof (inPlace_shape _ (call_shape n) _ _ _ _ J) as Sh. split; [|exact (apart_shape K _ _ (eq_sym Sh) A2)].
    unfold SettingsModel.inPlace in J. destruct (nth_error (snd s0) l) as [[g|]|] eqn:El; try discriminate.
    destruct (call n g s0) as [[[t2 g'] [r h]]| | |] eqn:Ef; try discriminate. simpl in J. inversion J; subst. clear J. simpl.
    pose proof (IH _ _ _ _ _ (A2 _ _ Hl El) A2 Ef) as Ag. intros x Hx. rewrite setnth_other by congruence. transitivity (nth_error (snd s0) x); [exact (A1 x Hx)|exact (Ag x Hx)]. }
  assert (HS : stays K (snd s) (snd s)) by (split; auto; intros x Hx; auto).
  destruct f as [|c u|k z g0 g1|l|l|l d].
  - discriminate.
  - cbn [SettingsModel.call] in H. destruct (user c u (fst s)) as [[[t0 u'] r]| | |]; simpl in H; inversion H; subst. simpl. intros x Hx; auto.
  - cbn [SettingsModel.call] in H. match type of H with bind ?X _ = _ => destruct X as [[t0 [s0 [a b]]]| | |] eqn:Ec; try discriminate end. simpl in H. inversion H; subst. clear H.
    destruct Hp as [Hp0 Hp1].
    pose (I := fun (h : heap V U) (p : fn V U * fn V U) => stays K (snd s) h /\ points (outside K) (fst p) /\ points (outside K) (snd p)).
    assert (HI : I (snd s') (a, b)).
    { refine (container_keeps n k z I _ s (g0, g1) t s' (a, b) _ Ec); [|split; simpl; auto].
      intros second s0 [x y] t1 s1 [x1 y1] [[J1 J4] [J2 J3]] J. simpl in J, J2, J3. destruct second.
      - destruct (call n y s0) as [[[t2 z2] s2]| | |] eqn:E2; try discriminate. simpl in J. inversion J; subst. clear J.
        destruct (call_shape _ _ _ _ _ _ E2) as [K1 K2]. pose proof (IH _ _ _ _ _ J3 J4 E2) as Ag. split; [split|].
        + intros w Hw. rewrite (J1 w Hw). auto.
        + eapply apart_shape; [symmetry; exact K2|auto].
        + simpl. split; auto. eapply points_shape; [symmetry; exact K1|auto].
      - destruct (call n x s0) as [[[t2 z2] s2]| | |] eqn:E2; try discriminate. simpl in J. inversion J; subst. clear J.
        destruct (call_shape _ _ _ _ _ _ E2) as [K1 K2]. pose proof (IH _ _ _ _ _ J2 J4 E2) as Ag. split; [split|].
        + intros w Hw. rewrite (J1 w Hw). auto.
        + eapply apart_shape; [symmetry; exact K2|auto].
        + simpl. split; auto. eapply points_shape; [symmetry; exact K1|auto]. }
    destruct HI as [[J1 J4] _]. auto.
  - cbn [SettingsModel.call] in H. unfold gbind in H. destruct (inPlace (call n) l s) as [[t0 s0]| | |] eqn:Ei; try discriminate. inversion H; subst. eapply HP; eauto.
  - cbn [SettingsModel.call] in H. unfold gbind in H. destruct (inPlace (call n) l s) as [[t0 s0]| | |] eqn:Ei; try discriminate. inversion H; subst. eapply HP; eauto.
  - destruct (derive_keeps n l d (stays K (snd s))) with (s := s) (t := t) (f' := f') (s' := s') as [-> [J1 J2]]; auto.
    intros s0 t0 s1 J0 J1. eapply HP; eauto.
Qed.

(** ** Calls inside a closed region depend on the region only. *)
Definition alike (K : loc -> Prop) (s1 s2 : rst (ext E (heap V U))) : Prop :=
  fst s1 = fst s2 /\ agree K (snd s1) (snd s2) /\ closed K (snd s1).

Lemma alike_draws : forall K, @drawsAlike (ext E (heap V U)) (ext E (heap V U)) (alike K).
Proof.
  intros K a b [r1 h1] [r2 h2] [A1 [A2 A3]]. simpl in *. subst r2. destruct (unif E a b r1) as [z r]. simpl. split; auto. split; auto.
Qed.
Lemma alike2_draws : forall K (P : fn V U * fn V U -> Prop), @drawsAlike (ext (ext E (heap V U)) (fn V U * fn V U)) (ext (ext E (heap V U)) (fn V U * fn V U))
  (fun q1 q2 => alike K (fst q1) (fst q2) /\ snd q1 = snd q2 /\ P (snd q1)).
Proof.
  intros K P a b [[r1 h1] p1] [[r2 h2] p2] [[A1 [A2 A3]] [A4 A5]]. simpl in *. subst r2 p2. destruct (unif E a b r1) as [z r]. simpl. split; auto. split; auto. split; auto.
Qed.

Lemma call_alike : forall K n f, points K f -> sim (alike K) (call n f) (call n f).
Proof.
  intros K. induction n as [|n IH]; intros f Hp s1 s2 Hs; [exact I|].
  assert (HP : forall l, K l -> sim (alike K) (inPlace (call n) l) (inPlace (call n) l)).
  { intros l Hl q1 q2 [A1 [A2 A3]]. unfold SettingsModel.inPlace. rewrite <- (A2 l Hl). destruct (nth_error (snd q1) l) as [[g|]|] eqn:El; simpl; auto.
    specialize (IH g (A3 _ _ Hl El) q1 q2 (conj A1 (conj A2 A3))).
    destruct (call n g q1) as [[[t1 g1] [r1 h1]]| | |] eqn:F1, (call n g q2) as [[[t2 g2] [r2 h2]]| | |] eqn:F2; simpl in IH; try contradiction; simpl; auto.
    destruct IH as [J1 [J2 [J3 J4]]]. inversion J1; subst. split; auto. simpl in *. split; auto.
    destruct (call_shape _ _ _ _ _ _ F1) as [S1 S2]. simpl in S2. split; simpl.
    - intros x Hx. destruct (Nat.eq_dec x l) as [->|N]; [|rewrite !setnth_other by congruence; auto].
      destruct (nth_error h1 l) eqn:N1; [|].
      + rewrite (setnth_at _ _ _ _ _ N1). rewrite (J3 l Hl) in N1. rewrite (setnth_at _ _ _ _ _ N1). auto.
      + assert (Hn1 : nth_error (set_nth l (Some g2) h1) l = None) by (apply nth_error_None; rewrite setnth_len; apply nth_error_None; auto).
        rewrite (J3 l Hl) in N1. assert (Hn2 : nth_error (set_nth l (Some g2) h2) l = None) by (apply nth_error_None; rewrite setnth_len; apply nth_error_None; auto).
        congruence.
    - intros x f0 Hx Hf. apply setnth_inv in Hf. destruct Hf as [[-> Hf]|[_ Hf]]; [|eapply J4; eauto]. inversion Hf; subst.
      eapply points_shape; [symmetry; exact S1|]. eapply A3; eauto. }
  cbn [SettingsModel.call]. destruct f as [|c u|k z g0 g1|l|l|l d].
  - simpl. auto.
  - destruct Hs as [A1 [A2 A3]]. rewrite A1. destruct (user c u (fst s2)) as [[[t0 u'] r]| | |]; simpl; auto. split; auto. split; auto.
  - destruct Hp as [Hp0 Hp1].
    pose (R := fun q1 q2 : rst (ext (ext E (heap V U)) (fn V U * fn V U)) => alike K (fst q1) (fst q2) /\ snd q1 = snd q2 /\ (points K (fst (snd q1)) /\ points K (snd (snd q1)))).
    assert (HM : forall second, sim R (member (call n) second) (member (call n) second)).
    { intros second [q1 [x1 y1]] [q2 [x2 y2]] [A1 [A2 [A3 A4]]]. simpl in A1, A2, A3, A4. inversion A2; subst x2 y2. clear A2. unfold member. destruct second.
      - specialize (IH y1 A4 q1 q2 A1). destruct (call n y1 q1) as [[[t1 g1'] s1']| | |] eqn:F1, (call n y1 q2) as [[[t2 g2'] s2']| | |] eqn:F2; simpl in IH; try contradiction; simpl; auto.
        destruct IH as [J1 J2]. inversion J1; subst. split; auto. split; auto. split; auto. simpl. split; auto.
        eapply points_shape; [symmetry; apply (call_shape _ _ _ _ _ _ F1)|auto].
      - specialize (IH x1 A3 q1 q2 A1). destruct (call n x1 q1) as [[[t1 g1'] s1']| | |] eqn:F1, (call n x1 q2) as [[[t2 g2'] s2']| | |] eqn:F2; simpl in IH; try contradiction; simpl; auto.
        destruct IH as [J1 J2]. inversion J1; subst. split; auto. split; auto. split; auto. simpl. split; auto.
        eapply points_shape; [symmetry; apply (call_shape _ _ _ _ _ _ F1)|auto]. }
    pose proof (sim_container R (alike2_draws K (fun p => points K (fst p) /\ points K (snd p))) V seq seq2 lt n k _ _ _ _ z (HM false) (HM true) (s1, (g0, g1)) (s2, (g0, g1))) as HC.
    assert (HR : R (s1, (g0, g1)) (s2, (g0, g1))) by (split; auto). specialize (HC HR).
    destruct (container seq seq2 lt n k (member (call n) false) (member (call n) true) z (s1, (g0, g1))) as [[t1 [q1 [a1 b1]]]| | |],
             (container seq seq2 lt n k (member (call n) false) (member (call n) true) z (s2, (g0, g1))) as [[t2 [q2 [a2 b2]]]| | |]; simpl in HC; try contradiction; simpl; auto.
    destruct HC as [-> [J1 [J2 _]]]. simpl in J1, J2. inversion J2; subst. split; auto.
  - apply sim_gbind; auto. intros t. apply sim_gret.
  - apply sim_gbind; auto. intros t. apply sim_gret.
  - destruct d as [f0|crit]; (apply sim_gbind; [|intros t; apply sim_gret|auto]); [apply sim_transformGen|apply sim_filterGen]; auto.
Qed.
End Calls.
