(** Programs with generator objects: what statements change. *)
From Coq Require Import List ZArith Bool Lia Arith.
From Verif Require Import Base TreeModel TupleModel RandomModel ListModel ContainerModel GenModel SettingsModel SettingsSpec SettingsProof BitmapProof.
Import ListNotations.

Section Statements.
Context {E : engine} {V U : Type} (user : nat -> U -> G E (tree V * U)) (seq : list V -> V) (seq2 : list (V * V) -> V) (lt : V -> V -> bool).
Notation call := (call user seq seq2 lt).
Notation exec := (exec user seq seq2 lt).
Notation run := (run user seq seq2 lt).

Lemma destroy_len : forall ls (h : heap V U), length (destroy h ls) = length h.
Proof. unfold destroy. induction ls as [|l ls IH]; intros h; simpl; auto. rewrite IH. apply setnth_len. Qed.
Lemma destroy_other : forall ls (h : heap V U) x, ~ In x ls -> nth_error (destroy h ls) x = nth_error h x.
Proof.
  unfold destroy. induction ls as [|l ls IH]; intros h x H; simpl; auto. rewrite IH by (intros J; apply H; right; auto).
  apply setnth_other. intros ->. apply H. left; auto.
Qed.
Lemma destroy_in : forall ls (h : heap V U) x, In x ls -> x < length h -> nth_error (destroy h ls) x = Some None.
Proof.
  unfold destroy. induction ls as [|l ls IH]; intros h x H Hx; simpl in *; [contradiction|].
  destruct (in_dec Nat.eq_dec x ls) as [i|n]; [apply IH; auto; rewrite setnth_len; auto|]. destruct H as [->|H]; [|contradiction].
  change (fold_left (fun h0 l => set_nth l None h0) ls (set_nth x None h)) with (destroy (set_nth x None h) ls). rewrite destroy_other by auto.
  destruct (nth_error h x) eqn:En; [eapply setnth_at; eauto|apply nth_error_None in En; lia].
Qed.

Lemma objectAt_some : forall (h : heap V U) l f, objectAt h l = Ok f -> nth_error h l = Some (Some f).
Proof. intros h l f H. unfold objectAt in H. destruct (nth_error h l) as [[g|]|]; try discriminate. inversion H; auto. Qed.
Lemma varLoc_some : forall vs y l, varLoc vs y = Ok l -> exists v, nth_error vs y = Some v /\ vloc v = l.
Proof. intros vs y l H. unfold varLoc in H. destruct (nth_error vs y); inversion H. eauto. Qed.
Lemma given_some : forall vs (h : heap V U) g f, given vs h g = Ok f ->
  (exists c u, g = FromUser c u /\ f = FUser c u) \/ (exists y v, g = FromVar y /\ nth_error vs y = Some v /\ nth_error h (vloc v) = Some (Some f)).
Proof.
  intros vs h [c u|y] f H; simpl in H; [left; inversion H; eauto|right].
  destruct (varLoc vs y) as [l| | |] eqn:El; try discriminate. apply varLoc_some in El. destruct El as [v [V1 <-]]. apply objectAt_some in H. eauto.
Qed.

Definition isArbi (f : fn V U) : Prop := match f with FArbi _ _ _ _ => True | _ => False end.

(** One setter. *)
Lemma chain_step : forall vs a r l temps (h : heap V U) x, chain vs (a :: r) l temps h = Ok x ->
  exists k z g0 g1, nth_error h l = Some (Some (FArbi k z g0 g1)) /\
    ((~ setsGenerator a /\ exists z', chain vs r l temps (set_nth l (Some (FArbi k z' g0 g1)) h) = Ok x /\
        minSize z' = lastGiven givesMin [a] (minSize z) /\ maxSize z' = lastGiven givesMax [a] (maxSize z)) \/
     (exists g f g0' g1', (a = SetElem g \/ a = SetKey g) /\ given vs h g = Ok f /\
        ((k = KVector /\ a = SetElem g /\ g0' = f /\ g1' = g1) \/ (k = KMap /\ a = SetElem g /\ g0' = g0 /\ g1' = f) \/ (k = KMap /\ a = SetKey g /\ g0' = f /\ g1' = g1)) /\
        chain vs r (length h) (temps ++ [length h]) (set_nth l (Some (FArbi k z g0' g1')) h ++ [Some (FArbi k z g0' g1')]) = Ok x)).
Proof.
  intros vs a r l temps h x H. cbn [chain] in H. destruct (objectAt h l) as [f| | |] eqn:Ef; try discriminate. apply objectAt_some in Ef.
  cbn [bind] in H. destruct f as [|c u|k z g0 g1|p|p|p d]; try discriminate. exists k, z, g0, g1. split; auto.
  destruct a as [n|n|n|mn mx|g|g].
  - left. split; auto. exists (setMinSize n z). auto.
  - left. split; auto. exists (setMaxSize n z). auto.
  - left. split; auto. exists (setSize n z). auto.
  - left. split; auto. exists (setSize2 mn mx z). auto.
  - right. destruct (given vs h g) as [f| | |] eqn:Eg; try discriminate. cbn [bind] in H. destruct k; try discriminate.
    exists g, f, f, g1. split; auto. split; auto. split; auto. right. right. auto.
  - right. destruct (given vs h g) as [f| | |] eqn:Eg; try discriminate. cbn [bind] in H. destruct k; try discriminate.
    + exists g, f, f, g1. split; auto. split; auto. split; auto.
    + exists g, f, g0, f. split; auto. split; auto. split; auto. right. left. auto.
Qed.

(** A chain changes the object it starts from and adds temporaries. *)
Lemma chain_frame : forall vs ss l temps (h : heap V U) l' temps' h', chain vs ss l temps h = Ok (l', temps', h') -> l < length h ->
  length h <= length h' /\ (forall x, x < length h -> x <> l -> nth_error h' x = nth_error h x) /\
  (exists new, temps' = temps ++ new /\ (forall t, In t new -> length h <= t < length h') /\ (l' = l \/ In l' new) /\ (new = [] -> l' = l)) /\
  (nth_error h' l = nth_error h l \/ (exists f f', isArbi f /\ isArbi f' /\ nth_error h l = Some (Some f) /\ nth_error h' l = Some (Some f'))) /\
  (ss = [] -> h' = h /\ l' = l /\ temps' = temps).
Proof.
  intros vs. induction ss as [|a r IH]; intros l temps h l' temps' h' H Hl.
  - cbn [chain] in H. inversion H; subst. split; auto. split; auto. split; [|auto]. exists []. rewrite app_nil_r. split; auto. split; [intros t []|auto].
  - apply chain_step in H. destruct H as [k [z [g0 [g1 [Hn [[_ [z' [H _]]]|[g [f [g0' [g1' [_ [_ [_ H]]]]]]]]]]]]].
    + apply IH in H; [|rewrite setnth_len; auto]. destruct H as [A1 [A2 [A3 [A4 _]]]]. rewrite setnth_len in *. split; auto. split; [|split; [|split; [|discriminate]]].
      * intros x Hx Hn'. rewrite A2 by auto. apply setnth_other. auto.
      * destruct A3 as [new [B1 [B2 [B3 B4]]]]. exists new. auto.
      * right. rewrite (setnth_at _ _ _ _ _ Hn) in A4. destruct A4 as [A4|[f1 [f2 [F1 [F2 [F3 F4]]]]]].
        -- exists (FArbi k z g0 g1), (FArbi k z' g0 g1). repeat split; auto.
        -- exists (FArbi k z g0 g1), f2. repeat split; auto.
    + apply IH in H; [|rewrite app_length, setnth_len; simpl; lia]. destruct H as [A1 [A2 [A3 [A4 _]]]]. rewrite app_length, setnth_len in *. simpl in *.
      split; [lia|]. split; [|split; [|split; [|discriminate]]].
      * intros x Hx Hn'. rewrite A2 by lia. rewrite nth_error_app1 by (rewrite setnth_len; auto). apply setnth_other. auto.
      * destruct A3 as [new [B1 [B2 [B3 B4]]]]. exists (length h :: new). rewrite <- app_assoc in B1. split; auto. split; [|split; [|discriminate]].
        -- intros t [<-|Ht]; [lia|]. specialize (B2 t Ht). lia.
        -- right. destruct B3 as [->|B3]; [left; auto|right; auto].
      * right. exists (FArbi k z g0 g1), (FArbi k z g0' g1'). repeat split; auto. rewrite A2 by lia. rewrite nth_error_app1 by (rewrite setnth_len; auto).
        eapply setnth_at; eauto.
Qed.

(** Pointers in the objects a chain makes come from the objects it uses. *)
Lemma chain_apart : forall K vs ss l temps (h : heap V U) l' temps' h', chain vs ss l temps h = Ok (l', temps', h') -> ~ K l -> apart K h -> (forall x, K x -> x < length h) ->
  (forall y v, In y (flat_map namesOf ss) -> nth_error vs y = Some v -> ~ K (vloc v)) -> apart K h' /\ agree K h h' /\ ~ K l'.
Proof.
  intros K vs. induction ss as [|a r IH]; intros l temps h l' temps' h' H Hl Ha HK Hn.
  - cbn [chain] in H. inversion H; subst. split; auto. split; auto. intros x Hx; auto.
  - apply chain_step in H. destruct H as [k [z [g0 [g1 [Hc [[_ [z' [H _]]]|[g [f [g0' [g1' [Hag [Hg [Hk H]]]]]]]]]]]]].
    + assert (Hag2 : agree K h (set_nth l (Some (FArbi k z' g0 g1)) h)) by (intros x Hx; rewrite setnth_other; [auto|intros ->; auto]).
      apply IH in H; auto.
      * destruct H as [A1 [A2 A3]]. split; auto. split; auto. intros x Hx. rewrite (Hag2 x Hx). auto.
      * intros x f Hx Hf. apply setnth_inv in Hf. destruct Hf as [[-> Hf]|[_ Hf]]; [|eauto]. inversion Hf; subst. exact (Ha _ _ Hx Hc).
      * intros x Hx. rewrite setnth_len. auto.
      * intros y v Hy. apply Hn. simpl. apply in_or_app. auto.
    + assert (Hf : points (outside K) f).
      { apply given_some in Hg. destruct Hg as [[c [u [_ ->]]]|[y [v [-> [Hv Hg]]]]]; [exact I|]. refine (Ha _ _ _ Hg). apply (Hn y v); auto. simpl. apply in_or_app. left.
        destruct Hag as [->| ->]; simpl; auto. }
      assert (Hc' : points (outside K) (FArbi k z g0' g1')).
      { pose proof (Ha _ _ Hl Hc) as [P0 P1]. simpl. destruct Hk as [[_ [_ [-> ->]]]|[[_ [_ [-> ->]]]|[_ [_ [-> ->]]]]]; auto. }
      assert (HnK : ~ K (length h)) by (intros J; apply HK in J; lia).
      assert (Hag2 : agree K h (set_nth l (Some (FArbi k z g0' g1')) h ++ [Some (FArbi k z g0' g1')])).
      { intros x Hx. rewrite nth_error_app1 by (rewrite setnth_len; auto). rewrite setnth_other; [auto|intros ->; auto]. }
      apply IH in H; auto.
      * destruct H as [A1 [A2 A3]]. split; auto. split; auto. intros x Hx. rewrite (Hag2 x Hx). auto.
      * intros x f0 Hx Hf0. destruct (Nat.lt_ge_cases x (length h)) as [L|L].
        -- rewrite nth_error_app1 in Hf0 by (rewrite setnth_len; auto). apply setnth_inv in Hf0. destruct Hf0 as [[-> Hf0]|[_ Hf0]]; [|eauto]. inversion Hf0; subst. auto.
        -- rewrite nth_error_app2 in Hf0 by (rewrite setnth_len; auto). apply nth_error_In in Hf0. destruct Hf0 as [Hf0|[]]. inversion Hf0; subst. auto.
      * intros x Hx. rewrite app_length, setnth_len. specialize (HK x Hx). lia.
      * intros y v Hy. apply Hn. simpl. apply in_or_app. auto.
Qed.

(** Calling several times. *)
Lemma inputs_shape : forall fuel n f s ts f' s' sv, inputs user seq seq2 lt fuel n f s = Ok (ts, f', s', sv) -> erase f' = erase f /\ shape (snd s') = shape (snd s).
Proof.
  induction n as [|n IH]; intros f s ts f' s' sv H; cbn [inputs] in H; [inversion H; auto|].
  destruct (call fuel f s) as [[[t f1] s1]| | |] eqn:Ec; try discriminate. cbn [bind] in H. destruct (call_shape _ _ _ _ _ _ _ _ _ _ Ec) as [C1 C2].
  destruct n as [|n]; [inversion H; subst; auto|].
  destruct (inputs user seq seq2 lt fuel (S n) f1 s1) as [[[[ts2 f2] s2] sv2]| | |] eqn:Ei; try discriminate. cbn [bind] in H. inversion H; subst.
  destruct (IH _ _ _ _ _ _ Ei) as [D1 D2]. split; congruence.
Qed.
Lemma inputs_frame : forall K fuel n f s ts f' s' sv, points (outside K) f -> apart K (snd s) -> inputs user seq seq2 lt fuel n f s = Ok (ts, f', s', sv) -> agree K (snd s) (snd s').
Proof.
  intros K fuel. induction n as [|n IH]; intros f s ts f' s' sv Hp Ha H; cbn [inputs] in H; [inversion H; subst; intros x Hx; auto|].
  destruct (call fuel f s) as [[[t f1] s1]| | |] eqn:Ec; try discriminate. cbn [bind] in H. destruct (call_shape _ _ _ _ _ _ _ _ _ _ Ec) as [C1 C2].
  pose proof (call_frame _ _ _ _ _ _ _ _ _ _ _ Hp Ha Ec) as Ag.
  destruct n as [|n]; [inversion H; subst; auto|].
  destruct (inputs user seq seq2 lt fuel (S n) f1 s1) as [[[[ts2 f2] s2] sv2]| | |] eqn:Ei; try discriminate. cbn [bind] in H. inversion H; subst.
  assert (Ag2 : agree K (snd s1) (snd s')).
  { eapply IH; [| |exact Ei]; [eapply points_shape; [symmetry; exact C1|auto]|eapply apart_shape; [symmetry; exact C2|auto]]. }
  intros x Hx. rewrite (Ag x Hx). auto.
Qed.
Lemma forAll_shape : forall fuel n fails f r h ts h', forAllInputs user seq seq2 lt fuel n fails f r h = Ok (ts, h') -> shape h' = shape h.
Proof.
  intros fuel n fails f r h ts h' H. unfold forAllInputs in H. destruct (inputs user seq seq2 lt fuel n f (r, h)) as [[[[ts2 f2] s2] sv2]| | |] eqn:Ei; try discriminate.
  cbn [bind] in H. destruct (inputs_shape _ _ _ _ _ _ _ _ Ei) as [D1 D2]. simpl in D2. destruct fails; [|inversion H; subst; auto].
  destruct (call fuel f2 (sv2, snd s2)) as [[[t f3] s3]| | |] eqn:Ec; try discriminate. cbn [bind] in H. inversion H; subst.
  destruct (call_shape _ _ _ _ _ _ _ _ _ _ Ec) as [C1 C2]. simpl in C2. congruence.
Qed.
Lemma forAll_frame : forall K fuel n fails f r h ts h', points (outside K) f -> apart K h -> forAllInputs user seq seq2 lt fuel n fails f r h = Ok (ts, h') -> agree K h h'.
Proof.
  intros K fuel n fails f r h ts h' Hp Ha H. unfold forAllInputs in H. destruct (inputs user seq seq2 lt fuel n f (r, h)) as [[[[ts2 f2] s2] sv2]| | |] eqn:Ei; try discriminate.
  cbn [bind] in H. destruct (inputs_shape _ _ _ _ _ _ _ _ Ei) as [D1 D2]. pose proof (inputs_frame K _ _ _ (r, h) _ _ _ _ Hp Ha Ei) as Ag. simpl in D2, Ag.
  destruct fails; [|inversion H; subst; auto].
  destruct (call fuel f2 (sv2, snd s2)) as [[[t f3] s3]| | |] eqn:Ec; try discriminate. cbn [bind] in H. inversion H; subst.
  assert (Ag2 : agree K (snd (sv2, snd s2)) (snd s3)).
  { eapply call_frame; [| |exact Ec]; [eapply points_shape; [symmetry; exact D1|auto]|simpl; eapply apart_shape; [symmetry; exact D2|auto]]. }
  intros x Hx. rewrite (Ag x Hx). auto.
Qed.

(** What a statement does to the variables and to an object. *)
Definition named (q : st E V U) (x : loc) : Prop := exists v, In v (vars q) /\ vloc v = x.

Lemma varLoc_named : forall q y l, varLoc (vars q) y = Ok l -> named q l.
Proof. intros q y l H. apply varLoc_some in H. destruct H as [v [H1 H2]]. exists v. split; auto. eapply nth_error_In; eauto. Qed.

Definition cellOk (q : st E V U) (h' : heap V U) : Prop :=
  length (hp q) <= length h' /\
  forall x o, nth_error (hp q) x = Some o -> exists o', nth_error h' x = Some o' /\
    match o, o' with
    | None, None => True
    | Some f, Some f' => erase f' = erase f \/ (named q x /\ isArbi f /\ isArbi f')
    | Some f, None => named q x
    | None, Some _ => False
    end.

Lemma cellOk_shape : forall q h', shape h' = shape (hp q) -> cellOk q h'.
Proof.
  intros q h' H. split; [rewrite (shape_len _ _ _ _ H); auto|]. intros x o Ho. destruct o as [f|].
  - destruct (shape_some _ _ _ _ _ _ (eq_sym H) Ho) as [g [G1 G2]]. exists (Some g). auto.
  - exists None. split; auto. exact (shape_none _ _ _ _ _ (eq_sym H) Ho).
Qed.
Lemma cellOk_app : forall q new, cellOk q (hp q ++ new).
Proof.
  intros q new. split; [rewrite app_length; lia|]. intros x o Ho. exists o. split; [rewrite nth_error_app1; auto; apply nth_error_Some; congruence|]. destruct o; auto.
Qed.
(** After a chain, with new objects added and temporaries destroyed. *)
Lemma cellOk_chain : forall q y ss l l' temps h' new ls, varLoc (vars q) y = Ok l -> l < length (hp q) -> chain (vars q) ss l [] (hp q) = Ok (l', temps, h') ->
  incl ls temps -> cellOk q (destroy (h' ++ new) ls).
Proof.
  intros q y ss l l' temps h' new ls Hy Hl H Hi. destruct (chain_frame _ _ _ _ _ _ _ _ H Hl) as [A1 [A2 [[nw [B1 [B2 [B3 B4]]]] [A4 A5]]]]. simpl in B1. subst nw.
  split; [rewrite destroy_len, app_length; lia|]. intros x o Ho. assert (Hx : x < length (hp q)) by (apply nth_error_Some; congruence).
  rewrite destroy_other by (intros J; apply Hi in J; apply B2 in J; lia). rewrite nth_error_app1 by lia.
  destruct (Nat.eq_dec x l) as [->|N]; [|exists o; rewrite A2; auto; split; auto; destruct o; auto].
  destruct A4 as [A4|[f [f' [F1 [F2 [F3 F4]]]]]]; [exists o; rewrite A4; split; auto; destruct o; auto|].
  exists (Some f'). split; auto. rewrite F3 in Ho. inversion Ho; subst. right. split; auto. eapply varLoc_named; eauto.
Qed.
Lemma cellOk_destroy : forall q h' ls, cellOk q (destroy (h' ++ []) ls) -> cellOk q (destroy h' ls).
Proof. intros. rewrite app_nil_r in H. auto. Qed.

Lemma removelast_incl : forall X (l : list X), incl (removelast l) l.
Proof. induction l as [|a l IH]; intros x H; simpl in H; [contradiction|]. destruct l; [contradiction|]. destruct H as [->|H]; [left; auto|right; apply IH; auto]. Qed.

Definition newVarsOk (q q' : st E V U) : Prop :=
  exists vs, vars q' = vars q ++ vs /\ forall v, In v vs -> named q (vloc v) \/ length (hp q) <= vloc v.

(** A chain on an unknown object. *)
Lemma chain_len : forall vs ss l temps (h : heap V U) x, chain vs ss l temps h = Ok x -> ss <> [] -> l < length h.
Proof. intros vs [|a r] l temps h x H N; [congruence|]. apply chain_step in H. destruct H as [k [z [g0 [g1 [H _]]]]]. apply nth_error_Some. congruence. Qed.

Ltac unbind H :=
  match type of H with
  | bind ?X _ = _ => let Q := fresh "Q" in destruct X eqn:Q; try discriminate; cbn [bind] in H
  end.

(** Variables stand for objects. *)
Definition located (q : st E V U) : Prop := forall v, In v (vars q) -> vloc v < length (hp q).

Lemma varLoc_located : forall q y l, located q -> varLoc (vars q) y = Ok l -> l < length (hp q).
Proof. intros q y l Hl H. apply varLoc_named in H. destruct H as [v [H <-]]. auto. Qed.

Lemma exec_cells : forall fuel c q q', located q -> exec fuel c q = Ok q' -> cellOk q (hp q') /\ newVarsOk q q' /\ located q'.
Proof.
  intros fuel c q q' HL H.
  assert (HV : forall h' l own, cellOk q h' -> (named q l \/ length (hp q) <= l < length h') ->
     let q1 := {| hp := h'; vars := vars q ++ [{| vloc := l; vown := own |}]; defaults := defaults q; rnd := rnd q; out := out q |} in
     cellOk q (hp q1) /\ newVarsOk q q1 /\ located q1).
  { intros h' l own Hc Hl q1. split; auto. split.
    - exists [{| vloc := l; vown := own |}]. split; auto. intros v [<-|[]]. simpl. destruct Hl as [Hl|Hl]; [auto|right; lia].
    - intros v Hv. simpl in Hv. apply in_app_or in Hv. destruct Hc as [Hc _]. destruct Hv as [Hv|[<-|[]]]; [apply HL in Hv; simpl; lia|]. simpl.
      destruct Hl as [[v0 [Hl <-]]|Hl]; [apply HL in Hl; lia|lia]. }
  assert (HS : forall h' d r o, cellOk q h' -> let q1 := {| hp := h'; vars := vars q; defaults := d; rnd := r; out := o |} in cellOk q (hp q1) /\ newVarsOk q q1 /\ located q1).
  { intros h' d r o Hc q1. split; auto. split; [exists []; rewrite app_nil_r; split; auto; intros v []|].
    intros v Hv. apply HL in Hv. destruct Hc as [Hc _]. simpl. lia. }
  destruct c as [k g0 g1|g|g|y ss|y ss|y ss|y ss d|y ss|y|y r n fails|y|z]; cbn [SettingsModel.exec] in H.
  - unbind H. unbind H. inversion H; subst. apply HV; [apply cellOk_app|right; rewrite app_length; simpl; lia].
  - unbind H. inversion H; subst. apply HV; [apply cellOk_app|right; rewrite app_length; simpl; lia].
  - unbind H. inversion H; subst. apply HV; [apply cellOk_app|right; rewrite app_length; simpl; lia].
  - unbind H. unbind H. destruct a0 as [[l' temps] h']. unbind H. inversion H; subst. pose proof (varLoc_located _ _ _ HL Q) as Ha.
    pose proof (chain_frame _ _ _ _ _ _ _ _ Q0 Ha) as [A1 _]. apply HV; [eapply cellOk_chain; eauto; apply incl_refl|right]. rewrite destroy_len, app_length. simpl. lia.
  - unbind H. unbind H. destruct a0 as [[l' temps] h']. pose proof (varLoc_located _ _ _ HL Q) as Ha. pose proof (varLoc_named _ _ _ Q) as Hn.
    destruct (chain_frame _ _ _ _ _ _ _ _ Q0 Ha) as [A1 [_ [[nw [B1 [B2 [B3 _]]]] _]]]. simpl in B1. subst nw.
    assert (Hl' : named q l' \/ length (hp q) <= l' < length h') by (destruct B3 as [->|B3]; auto).
    destruct (endsInCopy ss); inversion H; subst; (apply HV; [apply cellOk_destroy; eapply cellOk_chain; eauto|rewrite destroy_len; auto]).
    + apply removelast_incl.
    + apply incl_refl.
  - unbind H. unbind H. destruct a0 as [[l' temps] h']. inversion H; subst. pose proof (varLoc_located _ _ _ HL Q) as Ha.
    apply HS. apply cellOk_destroy; eapply cellOk_chain; eauto. apply incl_refl.
  - unbind H. unbind H. destruct a0 as [[l' temps] h']. unbind H. inversion H; subst. pose proof (varLoc_located _ _ _ HL Q) as Ha.
    pose proof (chain_frame _ _ _ _ _ _ _ _ Q0 Ha) as [A1 _]. apply HV; [eapply cellOk_chain; eauto; apply incl_refl|right]. rewrite destroy_len, app_length. simpl. lia.
  - unbind H. unbind H. destruct a0 as [[l' temps] h']. inversion H; subst. pose proof (varLoc_located _ _ _ HL Q) as Ha.
    pose proof (chain_frame _ _ _ _ _ _ _ _ Q0 Ha) as [A1 _]. apply HV; [eapply cellOk_chain; eauto; apply incl_refl|right]. rewrite destroy_len, app_length. simpl. lia.
  - unbind H. unbind H. destruct a0 as [t [r h']]. inversion H; subst. apply HS. apply cellOk_shape.
    exact (inPlace_shape _ (call_shape user seq seq2 lt fuel) _ _ _ _ Q0).
  - unbind H. unbind H. unbind H. destruct a1 as [ts h']. inversion H; subst. apply HS. apply cellOk_shape. eapply forAll_shape; eauto.
  - destruct (nth_error (vars q) y) as [v|] eqn:Ev; [|discriminate]. inversion H; subst. apply HS.
    destruct (vown v); [|apply cellOk_shape; auto]. split; [rewrite setnth_len; auto|]. intros x o Ho. destruct (Nat.eq_dec (vloc v) x) as [<-|N].
    + exists None. split; [eapply setnth_at; eauto|]. destruct o; auto. exists v. split; auto. eapply nth_error_In; eauto.
    + exists o. split; [rewrite setnth_other; auto|]. destruct o; auto.
  - inversion H; subst. apply HS. apply cellOk_shape. auto.
Qed.

(** A region named by one variable only, which shares nothing with the other objects. *)
Definition separate (K : loc -> Prop) (d : nat) (q : st E V U) : Prop :=
  closed K (hp q) /\ apart K (hp q) /\ (forall x, K x -> x < length (hp q)) /\ d < length (vars q) /\
  (forall y v, nth_error (vars q) y = Some v -> K (vloc v) -> y = d).

Lemma apart_app : forall K (h : heap V U) new, apart K h -> (forall f, In (Some f) new -> points (outside K) f) -> apart K (h ++ new).
Proof.
  intros K h new Ha Hn l f Hl Hf. destruct (Nat.lt_ge_cases l (length h)) as [L|L]; [rewrite nth_error_app1 in Hf by auto; eauto|].
  rewrite nth_error_app2 in Hf by auto. apply nth_error_In in Hf. auto.
Qed.
Lemma apart_destroy : forall K ls (h : heap V U), apart K h -> apart K (destroy h ls).
Proof.
  intros K ls h Ha l f Hl Hf. destruct (in_dec Nat.eq_dec l ls) as [i|n]; [|rewrite destroy_other in Hf by auto; eauto].
  assert (L : l < length h) by (rewrite <- (destroy_len ls h); apply nth_error_Some; congruence). rewrite (destroy_in _ _ _ i L) in Hf. discriminate.
Qed.
Lemma agree_trans : forall K (a b c : heap V U), agree K a b -> agree K b c -> agree K a c.
Proof. intros K a b c H1 H2 x Hx. rewrite (H1 x Hx). auto. Qed.
Lemma agree_app : forall (K : loc -> Prop) (h : heap V U) new, (forall x, K x -> x < length h) -> agree K h (h ++ new).
Proof. intros K h new H x Hx. rewrite nth_error_app1; auto. Qed.
Lemma agree_destroy : forall (K : loc -> Prop) ls (h : heap V U), (forall x, K x -> ~ In x ls) -> agree K h (destroy h ls).
Proof. intros K ls h H x Hx. rewrite destroy_other; auto. Qed.
Lemma closed_agree : forall K (h h' : heap V U), agree K h h' -> closed K h -> closed K h'.
Proof. intros K h h' Ha Hc l f Hl Hf. rewrite <- (Ha l Hl) in Hf. eauto. Qed.

Lemma exec_separate : forall fuel K d c q q', located q -> separate K d q -> ~ In d (names c) -> exec fuel c q = Ok q' ->
  agree K (hp q) (hp q') /\ separate K d q'.
Proof.
  intros fuel K d c q q' HL [S1 [S2 [S3 [S4 S5]]]] Hd H.
  assert (HN : forall y l, y <> d -> varLoc (vars q) y = Ok l -> ~ K l).
  { intros y l Hy Hl J. apply varLoc_some in Hl. destruct Hl as [v [V1 <-]]. apply Hy. eauto. }
  assert (HG : forall g f, ~ In d (namesIn g) -> given (vars q) (hp q) g = Ok f -> points (outside K) f).
  { intros g f Hg Hf. apply given_some in Hf. destruct Hf as [[c0 [u [_ ->]]]|[y [v [-> [V1 V2]]]]]; [exact I|]. refine (S2 _ _ _ V2).
    intros J. apply Hg. left. eauto. }
  assert (HV : forall h' l own, agree K (hp q) h' -> apart K h' -> length (hp q) <= length h' -> ~ K l ->
     let q1 := {| hp := h'; vars := vars q ++ [{| vloc := l; vown := own |}]; defaults := defaults q; rnd := rnd q; out := out q |} in
     agree K (hp q) (hp q1) /\ separate K d q1).
  { intros h' l own Ha Hap Hlen Hl q1. split; auto. split; [eapply closed_agree; eauto|]. split; auto. split; [intros x Hx; apply S3 in Hx; simpl; lia|].
    split; [simpl; rewrite app_length; simpl; lia|]. intros y v Hv HK. simpl in Hv. destruct (Nat.lt_ge_cases y (length (vars q))) as [L|L].
    - rewrite nth_error_app1 in Hv by auto. eauto.
    - rewrite nth_error_app2 in Hv by auto. apply nth_error_In in Hv. destruct Hv as [<-|[]]. contradiction. }
  assert (HS : forall h' z r o, agree K (hp q) h' -> apart K h' -> length (hp q) <= length h' ->
     let q1 := {| hp := h'; vars := vars q; defaults := z; rnd := r; out := o |} in agree K (hp q) (hp q1) /\ separate K d q1).
  { intros h' z r o Ha Hap Hlen q1. split; auto. split; [eapply closed_agree; eauto|]. split; auto. split; [intros x Hx; apply S3 in Hx; simpl; lia|]. split; auto. }
  assert (HC : forall y ss l l' temps h', ~ In d (y :: flat_map namesOf ss) -> varLoc (vars q) y = Ok l -> chain (vars q) ss l [] (hp q) = Ok (l', temps, h') ->
     apart K h' /\ agree K (hp q) h' /\ ~ K l' /\ length (hp q) <= length h' /\ (forall x, K x -> ~ In x temps)).
  { intros y ss l l' temps h' Hn Hy Hc. pose proof (varLoc_located _ _ _ HL Hy) as Ha.
    destruct (chain_frame _ _ _ _ _ _ _ _ Hc Ha) as [A1 [_ [[nw [B1 [B2 _]]] _]]]. simpl in B1. subst nw.
    destruct (chain_apart K _ _ _ _ _ _ _ _ Hc) as [C1 [C2 C3]]; auto.
    - apply (HN y l); [intros ->; apply Hn; left; auto|auto].
    - intros y0 v Hy0 Hv J. apply Hn. right. rewrite <- (S5 _ _ Hv J). auto.
    - split; auto. split; auto. split; auto. split; auto. intros x Hx J. apply B2 in J. apply S3 in Hx. lia. }
  destruct c as [k g0 g1|g|g|y ss|y ss|y ss|y ss dd|y ss|y|y r n fails|y|z]; cbn [SettingsModel.exec] in H; cbn [names] in Hd.
  - unbind H. unbind H. inversion H; subst. apply HV; [apply agree_app; auto| |rewrite app_length; lia|intros J; apply S3 in J; lia].
    apply apart_app; auto. intros f [Hf|[]]. inversion Hf; subst. simpl. split; [eapply HG; [|eauto]; intros J; apply Hd; apply in_or_app; auto|].
    destruct k; try (inversion Q0; subst; exact I). eapply HG; [|eauto]. intros J; apply Hd; apply in_or_app; auto.
  - unbind H. inversion H; subst. apply HV; [apply agree_app; auto| |rewrite app_length; lia|intros J; apply S3 in J; lia].
    apply apart_app; auto. intros f [Hf|[]]. inversion Hf; subst. eauto.
  - unbind H. inversion H; subst. apply HV; [apply agree_app; auto| |rewrite app_length; lia|intros J; apply S3 in J; lia].
    apply apart_app; auto. intros f [Hf|[Hf|[]]]; inversion Hf; subst; [eauto|]. simpl. intros J; apply S3 in J; lia.
  - unbind H. unbind H. destruct a0 as [[l' temps] h']. unbind H. inversion H; subst. destruct (HC _ _ _ _ _ _ Hd Q Q0) as [C1 [C2 [C3 [C4 C5]]]]. apply objectAt_some in Q1.
    assert (C6 : forall x, K x -> x < length h') by (intros x Hx; apply S3 in Hx; lia).
    apply HV; [|apply apart_destroy, apart_app; auto|rewrite destroy_len, app_length; lia|intros J; apply S3 in J; lia].
    + eapply agree_trans; [exact C2|]. eapply agree_trans; [apply agree_app; auto|]. apply agree_destroy; auto.
    + intros f [Hf|[]]. inversion Hf; subst. eauto.
  - unbind H. unbind H. destruct a0 as [[l' temps] h']. destruct (HC _ _ _ _ _ _ Hd Q Q0) as [C1 [C2 [C3 [C4 C5]]]].
    destruct (endsInCopy ss); inversion H; subst; (apply HV; [eapply agree_trans; [exact C2|]; apply agree_destroy|apply apart_destroy; auto|rewrite destroy_len; auto|auto]); auto.
    intros x Hx J. apply (C5 x Hx). eapply removelast_incl; eauto.
  - unbind H. unbind H. destruct a0 as [[l' temps] h']. inversion H; subst. destruct (HC _ _ _ _ _ _ Hd Q Q0) as [C1 [C2 [C3 [C4 C5]]]].
    apply HS; [eapply agree_trans; [exact C2|]; apply agree_destroy; auto|apply apart_destroy; auto|rewrite destroy_len; auto].
  - unbind H. unbind H. destruct a0 as [[l' temps] h']. unbind H. inversion H; subst. destruct (HC _ _ _ _ _ _ Hd Q Q0) as [C1 [C2 [C3 [C4 C5]]]]. apply objectAt_some in Q1.
    assert (C6 : forall x, K x -> x < length h') by (intros x Hx; apply S3 in Hx; lia).
    apply HV; [|apply apart_destroy, apart_app; auto|rewrite destroy_len, app_length; lia|intros J; apply S3 in J; lia].
    + eapply agree_trans; [exact C2|]. eapply agree_trans; [apply agree_app; auto|]. apply agree_destroy; auto.
    + intros f [Hf|[Hf|[Hf|[]]]]; inversion Hf; subst; [eauto| |]; simpl; intros J; apply C6 in J; lia.
  - unbind H. unbind H. destruct a0 as [[l' temps] h']. inversion H; subst. destruct (HC _ _ _ _ _ _ Hd Q Q0) as [C1 [C2 [C3 [C4 C5]]]].
    assert (C6 : forall x, K x -> x < length h') by (intros x Hx; apply S3 in Hx; lia).
    apply HV; [|apply apart_destroy, apart_app; auto|rewrite destroy_len, app_length; lia|intros J; apply S3 in J; lia].
    + eapply agree_trans; [exact C2|]. eapply agree_trans; [apply agree_app; auto|]. apply agree_destroy; auto.
    + intros f [Hf|[Hf|[]]]; inversion Hf; subst; simpl; auto. intros J; apply C6 in J; lia.
  - unbind H. unbind H. destruct a0 as [t [r h']]. inversion H; subst. pose proof (HN y a (fun J => Hd (or_introl J)) Q) as Hy.
    pose proof (inPlace_shape _ (call_shape user seq seq2 lt fuel) _ _ _ _ Q0) as Sh. simpl in Sh.
    apply HS; [|eapply apart_shape; [symmetry; exact Sh|auto]|rewrite (shape_len _ _ _ _ Sh); auto].
    unfold SettingsModel.inPlace in Q0. destruct (nth_error (snd (rnd q, hp q)) a) as [[g|]|] eqn:El; try discriminate. simpl in El.
    unbind Q0. destruct a0 as [[t2 g'] [r2 h2]]. inversion Q0; subst. pose proof (call_frame user seq seq2 lt K _ _ (rnd q, hp q) _ _ _ (S2 _ _ Hy El) S2 Q1) as Ag. simpl in Ag.
    intros x Hx. rewrite setnth_other by congruence. auto.
  - unbind H. unbind H. unbind H. destruct a1 as [ts h']. inversion H; subst. pose proof (HN y a (fun J => Hd (or_introl J)) Q) as Hy. apply objectAt_some in Q0.
    pose proof (forAll_shape _ _ _ _ _ _ _ _ Q1) as Sh. apply HS; [|eapply apart_shape; [symmetry; exact Sh|auto]|rewrite (shape_len _ _ _ _ Sh); auto].
    eapply forAll_frame; [| |exact Q1]; eauto.
  - destruct (nth_error (vars q) y) as [v|] eqn:Ev; [|discriminate]. inversion H; subst.
    assert (Hy : ~ K (vloc v)) by (intros J; apply Hd; left; eauto).
    destruct (vown v); [|apply HS; auto; intros x Hx; auto]. apply HS; [| |rewrite setnth_len; auto].
    + intros x Hx. rewrite setnth_other; congruence.
    + intros x f Hx Hf. apply setnth_inv in Hf. destruct Hf as [[_ Hf]|[_ Hf]]; [discriminate|eauto].
  - inversion H; subst. apply HS; auto. intros x Hx; auto.
Qed.

Lemma run_separate : forall fuel K d p q q', located q -> separate K d q -> unnamed d p -> run fuel p q = Ok q' -> agree K (hp q) (hp q') /\ separate K d q' /\ located q'.
Proof.
  intros fuel K d. induction p as [|c p IH]; intros q q' HL HS Hu H; cbn [SettingsModel.run] in H.
  - inversion H; subst. split; auto. intros x Hx; auto.
  - unbind H. destruct (exec_separate _ _ _ _ _ _ HL HS (Hu c (or_introl eq_refl)) Q) as [A1 A2]. destruct (exec_cells _ _ _ _ HL Q) as [_ [_ A3]].
    destruct (IH _ _ A3 A2 (fun c' Hc => Hu c' (or_intror Hc)) H) as [B1 [B2 B3]]. split; auto. eapply agree_trans; eauto.
Qed.
Lemma run_vars : forall fuel p q q', located q -> run fuel p q = Ok q' -> located q' /\ exists vs, vars q' = vars q ++ vs.
Proof.
  intros fuel. induction p as [|c p IH]; intros q q' HL H; cbn [SettingsModel.run] in H.
  - inversion H; subst. split; auto. exists []. rewrite app_nil_r. auto.
  - unbind H. destruct (exec_cells _ _ _ _ HL Q) as [_ [[vs [A1 _]] A3]]. destruct (IH _ _ A3 H) as [B1 [vs' B2]]. split; auto.
    exists (vs ++ vs'). rewrite B2, A1, app_assoc. auto.
Qed.

(** Objects no variable stands for keep their settings. *)
Lemma run_hidden : forall fuel x p q q', located q -> run fuel p q = Ok q' -> x < length (hp q) -> ~ named q x ->
  option_map (option_map erase) (nth_error (hp q') x) = option_map (option_map erase) (nth_error (hp q) x) /\ ~ named q' x /\ x < length (hp q').
Proof.
  intros fuel x. induction p as [|c p IH]; intros q q' HL H Hx Hn; cbn [SettingsModel.run] in H; [inversion H; subst; auto|].
  unbind H. destruct (exec_cells _ _ _ _ HL Q) as [[A0 A1] [[vs [A2 A3]] A4]].
  assert (Hn' : ~ named a x).
  { intros [v [Hv Hvx]]. rewrite A2 in Hv. apply in_app_or in Hv. destruct Hv as [Hv|Hv]; [apply Hn; exists v; auto|].
    apply A3 in Hv. rewrite Hvx in Hv. destruct Hv as [Hv|Hv]; [auto|lia]. }
  destruct (IH _ _ A4 H ltac:(lia) Hn') as [B1 B2]. split; auto. rewrite B1.
  destruct (nth_error (hp q) x) as [o|] eqn:Eo; [|apply nth_error_None in Eo; lia]. destruct (A1 _ _ Eo) as [o' [C1 C2]]. rewrite C1. simpl. f_equal.
  destruct o as [f|], o' as [f'|]; simpl; auto; try contradiction. destruct C2 as [->|[C2 _]]; [auto|contradiction].
Qed.

(** Pointers stay, until the object's lifetime ends. *)
Definition isPointer (f : fn V U) : Prop := match f with FPtr _ | FRef _ | FDerive _ _ => True | _ => False end.
Lemma erase_pointer : forall f f' : fn V U, isPointer f -> erase f' = erase f -> f' = f.
Proof. intros f f' Hp He. destruct f; simpl in Hp; try contradiction; destruct f'; simpl in He; try discriminate; congruence. Qed.
Lemma run_pointer : forall fuel x f p q q', located q -> run fuel p q = Ok q' -> isPointer f -> nth_error (hp q) x = Some (Some f) ->
  nth_error (hp q') x = Some (Some f) \/ nth_error (hp q') x = Some None.
Proof.
  intros fuel x f. assert (HN : forall p q q', located q -> run fuel p q = Ok q' -> nth_error (hp q) x = Some None -> nth_error (hp q') x = Some None).
  { induction p as [|c p IH]; intros q q' HL H Hx; cbn [SettingsModel.run] in H; [inversion H; subst; auto|].
    unbind H. destruct (exec_cells _ _ _ _ HL Q) as [[_ A1] [_ A4]]. destruct (A1 _ _ Hx) as [[f'|] [C1 C2]]; [contradiction|]. eapply IH; eauto. }
  induction p as [|c p IH]; intros q q' HL H Hf Hx; cbn [SettingsModel.run] in H; [inversion H; subst; auto|].
  unbind H. destruct (exec_cells _ _ _ _ HL Q) as [[_ A1] [_ A4]]. destruct (A1 _ _ Hx) as [[f'|] [C1 C2]].
  - destruct C2 as [C2|[_ [C2 _]]]; [|destruct f; simpl in *; contradiction]. apply erase_pointer in C2; auto. subst f'. eapply IH; eauto.
  - right. eapply HN; eauto.
Qed.
End Statements.
