From Coq Require Import List Bool Lia Arith.
From Verif Require Import Base RandomModel SharingModel SharingSpec.
Import ListNotations.
Local Open Scope list_scope.

Lemma gexp_ind2 : forall E V (P : gexp E V -> Prop), (forall g, P (XNew g)) -> (forall l, P (XSame l)) ->
  (forall c gs, Forall P gs -> P (XOneOf c gs)) -> (forall c g, P g -> P (XFilter c g)) -> (forall f g, P g -> P (XMap f g)) ->
  (forall ref gs ctor, Forall P gs -> P (XConstruct ref gs ctor)) -> forall g, P g.
Proof.
  intros E V P H1 H2 H3 H4 H5 H6. fix IH 1. intros [g|l|c gs|c g|f g|ref gs ctor].
  - apply H1.
  - apply H2.
  - apply H3. induction gs as [|x r R]; constructor; [apply IH|exact R].
  - apply H4. apply IH.
  - apply H5. apply IH.
  - apply H6. induction gs as [|x r R]; constructor; [apply IH|exact R].
Qed.

(** * The store *)

Definition ext {V} (st st' : store V) : Prop := exists e, st' = st ++ e.
Lemma ext_refl : forall V (st : store V), ext st st.
Proof. intros. exists []. rewrite app_nil_r. auto. Qed.
Lemma ext_trans : forall V (a b c : store V), ext a b -> ext b c -> ext a c.
Proof. intros V a b c [x ->] [y ->]. exists (x ++ y). rewrite app_assoc. auto. Qed.
Lemma ext_len : forall V (a b : store V), ext a b -> length a <= length b.
Proof. intros V a b [x ->]. rewrite app_length. lia. Qed.
Lemma ext_nth : forall V (a b : store V) l v, ext a b -> nth_error a l = Some v -> nth_error b l = Some v.
Proof. intros V a b l v [x ->] H. rewrite nth_error_app1; auto. apply nth_error_Some. congruence. Qed.
Lemma put_same : forall V (st : store V) l v, nth_error st l = Some v -> put l v st = st.
Proof. intros V. induction st as [|x st IH]; intros [|l] v H; cbn in *; auto; try congruence. f_equal. auto. Qed.
Lemma put_app : forall V (a e : store V) l v, length a <= l -> put l v (a ++ e) = a ++ put (l - length a) v e.
Proof.
  intros V. induction a as [|x a IH]; intros e l v H; cbn [app length].
  - rewrite Nat.sub_0_r. auto.
  - cbn [length] in H. destruct l as [|l]; [lia|]. cbn [put]. rewrite IH by lia. auto.
Qed.
Lemma put_ext : forall V (a b : store V) l v, ext a b -> length a <= l \/ nth_error a l = Some v -> ext a (put l v b).
Proof.
  intros V a b l v [e ->] [H|H].
  - rewrite put_app by auto. eexists. eauto.
  - rewrite put_same; [eexists; eauto|]. rewrite nth_error_app1; auto. apply nth_error_Some. congruence.
Qed.

(** * The generators give what they are meant to give *)

(** [a] gives an object with the value that [b] gives, and the objects of [st] stay as they are. *)
Definition agree {E V} (st : store V) (fr : Prop) (a : res (nat * store V * rst E)) (b : res (V * rst E)) : Prop :=
  match b with
  | Ok (v, r) => exists l st', a = Ok (l, st', r) /\ nth_error st' l = Some v /\ ext st st' /\ (fr -> length st <= l)
  | UB => a = UB
  | Throw e => a = Throw e
  | OutOfFuel => a = OutOfFuel
  end.
Definition sound {E V} (made : list V) (fr : Prop) (m : H E V nat) (g : G E V) : Prop := forall st r, ext made st -> agree st fr (m st r) (g r).

(** The same for lists of objects. *)
Definition agrees {E V} (st : store V) (frs : list Prop) (a : res (list nat * store V * rst E)) (b : res (list V * rst E)) : Prop :=
  match b with
  | Ok (vs, r) => exists ls st', a = Ok (ls, st', r) /\ Forall2 (fun l v => nth_error st' l = Some v) ls vs /\ ext st st' /\
                    Forall2 (fun (fr : Prop) l => fr -> length st <= l) frs ls
  | UB => a = UB
  | Throw e => a = Throw e
  | OutOfFuel => a = OutOfFuel
  end.

Lemma hall_sound : forall E V made (frs : list Prop) (ms : list (H E V nat)) (gs : list (G E V)),
  Forall2 (fun fr mg => sound made fr (fst mg) (snd mg)) frs (combine ms gs) -> length ms = length gs -> length frs = length ms ->
  forall st r, ext made st -> agrees st frs (hall ms st r) (gall gs r).
Proof.
  intros E V made frs ms. revert frs. induction ms as [|m ms IH]; intros frs gs F L1 L2 st r X; destruct gs as [|g gs]; try discriminate; destruct frs as [|fr frs]; try discriminate.
  - exists [], st. repeat split; auto. apply ext_refl.
  - cbn [combine] in F. inversion F as [|? ? ? ? Fh Ft]; subst. cbn [hall gall]. unfold hbind at 1, gbind at 1.
    pose proof (Fh st r X) as A. unfold agree in A. cbn [fst snd] in A. destruct (g r) as [[v r1]| | |] eqn:Eg; cbn; try (rewrite A; reflexivity).
    destruct A as (l & st1 & Em & Nl & X1 & Fr). rewrite Em. unfold hbind at 1, gbind at 1.
    assert (B := IH frs gs Ft ltac:(cbn in L1; lia) ltac:(cbn in L2; lia) st1 r1 (ext_trans _ _ _ _ X X1)). unfold agrees in B.
    destruct (gall gs r1) as [[vs r2]| | |]; cbn; try (rewrite B; reflexivity).
    destruct B as (ls & st2 & Em2 & F2 & X2 & Fr2). rewrite Em2. exists (l :: ls), st2. split; [reflexivity|]. split; [|split].
    + constructor; auto. eapply ext_nth; eauto.
    + eapply ext_trans; eauto.
    + constructor; auto. apply ext_len in X1. clear -Fr2 X1. induction Fr2 as [|fr0 l0 frs0 ls0 Hh0 F0 IH0]; constructor; auto. intros Hx. specialize (Hh0 Hx). lia.
Qed.

Lemma hall_read : forall E V ls vs (st : store V) (r : rst E), Forall2 (fun l v => nth_error st l = Some v) ls vs -> hall (map read ls) st r = Ok (vs, st, r).
Proof.
  intros E V ls vs st r F. induction F as [|l v ls vs Hl F IH]; [reflexivity|]. cbn [map hall]. unfold hbind at 1, read at 1. rewrite Hl.
  unfold hbind at 1. rewrite IH. reflexivity.
Qed.

Lemma writeRefs_ext : forall E V (st : store V) ref ls ws (cur : store V) (r : rst E), ext st cur ->
  (forall i l w, nth_error ref i = Some true -> nth_error ls i = Some l -> nth_error ws i = Some w -> length st <= l \/ nth_error st l = Some w) ->
  exists st', writeRefs ref ls ws cur r = Ok (tt, st', r) /\ ext st st'.
Proof.
  intros E V st. induction ref as [|b ref IH]; intros ls ws cur r X C; [exists cur; auto|].
  destruct ls as [|l ls]; [exists cur; auto|]. destruct ws as [|w ws]; [exists cur; auto|]. cbn [writeRefs].
  assert (K : exists cur', (if b then write l w else hret tt) cur r = Ok (tt, cur', r) /\ ext st cur').
  { destruct b; [|exists cur; auto]. exists (put l w cur). split; [reflexivity|]. apply put_ext; auto. apply (C 0); auto. }
  destruct K as (cur' & K & X'). unfold hbind. rewrite K. apply IH; auto. intros i. apply (C (S i)).
Qed.

Lemma hretry_sound : forall E V made fr (m : H E V nat) (g : G E V) crit fuel, sound made fr m g -> sound made fr (hretry fuel m crit) (gretry fuel g crit).
Proof.
  intros E V made fr m g crit fuel S. induction fuel as [|fuel IH]; intros st r X; [reflexivity|]. cbn [hretry gretry]. unfold hbind at 1, gbind at 1.
  pose proof (S st r X) as A. unfold agree in A. destruct (g r) as [[v r1]| | |]; cbn; try (rewrite A; reflexivity).
  destruct A as (l & st1 & -> & Nl & X1 & Fr). unfold hbind at 1, read. rewrite Nl. destruct (crit v).
  - exists l, st1. auto.
  - pose proof (IH st1 r1 (ext_trans _ _ _ _ X X1)) as B. unfold agree in B |- *. destruct (gretry fuel g crit r1) as [[v' r2]| | |]; auto.
    destruct B as (l' & st2 & E1 & N2 & X2 & Fr2). exists l', st2. split; auto. split; auto. split; [eapply ext_trans; eauto|]. intros F. apply ext_len in X1. specialize (Fr2 F). lia.
Qed.

Lemma all_fresh : forall E V (gs : list (gexp E V)),
  (fix all (l : list (gexp E V)) := match l with [] => True | x :: r => fresh x /\ all r end) gs <-> Forall fresh gs.
Proof. intros. induction gs as [|x gs IH]; split; intros X; auto; [destruct X; constructor; tauto|inversion X; tauto]. Qed.
Lemma all_harmless : forall E V n (gs : list (gexp E V)),
  (fix all (l : list (gexp E V)) := match l with [] => True | x :: r => harmless n x /\ all r end) gs <-> Forall (harmless n) gs.
Proof. intros. induction gs as [|x gs IH]; split; intros X; auto; [destruct X; constructor; tauto|inversion X; tauto]. Qed.

Lemma Forall2_nth : forall A B (P : A -> B -> Prop) l l', Forall2 P l l' -> forall i a b, nth_error l i = Some a -> nth_error l' i = Some b -> P a b.
Proof. intros A B P l l' F. induction F as [|x y l l' Hx F IH]; intros [|i] a b Ha Hb; cbn in *; try discriminate; [congruence|eauto]. Qed.
Lemma Forall2_len : forall A B (P : A -> B -> Prop) l l', Forall2 P l l' -> length l = length l'.
Proof. induction 1; cbn; auto. Qed.

Lemma sound_list : forall E V fuel made (gs : list (gexp E V)),
  Forall (fun g => harmless (length made) g -> sound made (fresh g) (generate fuel g) (meant fuel made g)) gs -> Forall (harmless (length made)) gs ->
  forall st r, ext made st -> agrees st (map fresh gs) (hall (map (generate fuel) gs) st r) (gall (map (meant fuel made) gs) r).
Proof.
  intros E V fuel made gs F Hh st r X. apply (hall_sound _ _ made); auto; try (rewrite !map_length; auto).
  clear st r X. induction gs as [|g gs IH]; [constructor|]. inversion F; inversion Hh; subst. cbn [map combine]. constructor; auto.
Qed.

Lemma generate_sound : forall E V fuel made (g : gexp E V), harmless (length made) g -> sound made (fresh g) (generate fuel g) (meant fuel made g).
Proof.
  intros E V fuel made. induction g as [g|l|c gs IH|c g IH|f g IH|ref gs ctor IH] using gexp_ind2; intros Hh st r X; cbn [generate meant].
  - unfold hbind, hlift, alloc. destruct (g r) as [[v r1]| | |]; cbn; auto. exists (length st), (st ++ [v]). split; auto.
    split; [rewrite nth_error_app2, Nat.sub_diag by lia; auto|]. split; [eexists; eauto|]. auto.
  - cbn in Hh. unfold gfail. destruct (nth_error made l) as [v|] eqn:N; [|apply nth_error_None in N; lia].
    cbn. exists l, st. split; auto. split; [eapply ext_nth; eauto|]. split; [apply ext_refl|tauto].
  - cbn in Hh. apply all_harmless in Hh. unfold hbind, hlift, gbind. destruct (c r) as [[i r1]| | |]; cbn; auto.
    destruct (nth_in_or_default i (map (meant fuel made) gs) (fun _ => UB)) as [I|D].
    + destruct (lt_dec i (length gs)) as [L|L].
      * destruct (nth_error gs i) as [g|] eqn:N; [|apply nth_error_None in N; lia].
        assert (Ig : In g gs) by (eapply nth_error_In; eauto). rewrite Forall_forall in IH, Hh.
        assert (nth i (map (generate fuel) gs) (fun _ _ => UB) = generate fuel g) as -> by (erewrite nth_error_nth; [reflexivity|]; rewrite nth_error_map, N; auto).
        assert (nth i (map (meant fuel made) gs) (fun _ => UB) = meant fuel made g) as -> by (erewrite nth_error_nth; [reflexivity|]; rewrite nth_error_map, N; auto).
        pose proof (IH g Ig (Hh g Ig) st r1 X) as A. unfold agree in A |- *. destruct (meant fuel made g r1) as [[v r2]| | |]; auto.
        destruct A as (l & st' & E1 & N1 & X1 & F1). exists l, st'. split; auto. split; auto. split; auto. intros F. apply F1. cbn in F. apply all_fresh in F. rewrite Forall_forall in F. auto.
      * rewrite !nth_overflow by (rewrite map_length; lia). reflexivity.
    + rewrite D. destruct (lt_dec i (length gs)) as [L|L]; [|rewrite nth_overflow by (rewrite map_length; lia); reflexivity].
      destruct (nth_error gs i) as [g|] eqn:N; [|apply nth_error_None in N; lia].
      assert (Ig : In g gs) by (eapply nth_error_In; eauto). rewrite Forall_forall in IH, Hh.
      assert (nth i (map (generate fuel) gs) (fun _ _ => UB) = generate fuel g) as -> by (erewrite nth_error_nth; [reflexivity|]; rewrite nth_error_map, N; auto).
      assert (Dm : nth i (map (meant fuel made) gs) (fun _ => UB) = meant fuel made g) by (erewrite nth_error_nth; [reflexivity|]; rewrite nth_error_map, N; auto).
      rewrite D in Dm. pose proof (IH g Ig (Hh g Ig) st r1 X) as A. rewrite <- Dm in A. exact A.
  - cbn in Hh. apply (hretry_sound E V made (fresh g) (generate fuel g) (meant fuel made g) c fuel (IH Hh) st r X).
  - cbn in Hh. destruct Hh as [Hh Hk]. pose proof (IH Hh st r X) as A. unfold hbind at 1, gbind at 1. unfold agree in A. destruct (meant fuel made g r) as [[v r1]| | |]; cbn; try (rewrite A; reflexivity).
    destruct A as (l & st1 & -> & N1 & X1 & F1). unfold hbind, read, write, alloc. rewrite N1.
    assert (X2 : ext st (put l (snd (f v)) st1)).
    { apply put_ext; auto. destruct Hk as [Hk|Hk]; auto. rewrite Hk. destruct (le_lt_dec (length st) l) as [|Lt]; auto. right. destruct X1 as [e ->]. rewrite nth_error_app1 in N1; auto. }
    exists (length (put l (snd (f v)) st1)), (put l (snd (f v)) st1 ++ [fst (f v)]). split; auto.
    split; [rewrite nth_error_app2, Nat.sub_diag by lia; auto|]. split; [eapply ext_trans; eauto; eexists; eauto|]. intros _. apply ext_len in X2. lia.
  - destruct Hh as (Hh & Hl & Hr). apply all_harmless in Hh. unfold hbind at 1, gbind at 1.
    pose proof (sound_list _ _ fuel made gs IH Hh st r X) as A. unfold agrees in A. destruct (gall (map (meant fuel made) gs) r) as [[vs r1]| | |]; cbn; try (rewrite A; reflexivity).
    destruct A as (ls & st1 & -> & F & X1 & Fr). unfold hbind at 1. rewrite (hall_read _ _ _ _ _ r1 F).
    destruct (writeRefs_ext E V st ref ls (snd (ctor vs)) st1 r1 X1) as (st2 & W & X2).
    { intros i l w Hi Hll Hw. pose proof (Forall2_len _ _ _ _ _ Fr) as L1. rewrite map_length in L1.
      destruct (nth_error gs i) as [g|] eqn:Ng; [|apply nth_error_None in Ng; assert (i < length ls) by (apply nth_error_Some; congruence); lia].
      assert (Nf : nth_error (map fresh gs) i = Some (fresh g)) by (rewrite nth_error_map, Ng; auto).
      pose proof (Forall2_nth _ _ _ _ _ Fr _ _ _ Nf Hll) as Fi. cbn in Fi. destruct (Hr i g Hi Ng) as [Hf|Hk]; [auto|].
      destruct (Hk vs) as [_ Hk2]. rewrite Hk2 in Hw. pose proof (Forall2_nth _ _ _ _ _ F _ _ _ Hll Hw) as Nl. cbn in Nl.
      destruct (le_lt_dec (length st) l) as [|Lt]; auto. right. destruct X1 as [e ->]. rewrite nth_error_app1 in Nl; auto. }
    unfold hbind. rewrite W. unfold alloc. exists (length st2), (st2 ++ [fst (ctor vs)]). split; auto.
    split; [rewrite nth_error_app2, Nat.sub_diag by lia; auto|]. split; [eapply ext_trans; eauto; eexists; eauto|]. intros _. apply ext_len in X2. lia.
Qed.

(** * Runs *)

Lemma observed_bind : forall E V A B (m : H E V A) (f : A -> H E V B) st r,
  observed (hbind m f st r) = match m st r with Ok (a, st', r') => observed (f a st' r') | UB => UB | Throw e => Throw e | OutOfFuel => OutOfFuel end.
Proof. intros. unfold hbind. destruct (m st r) as [[[a st'] r']| | |]; auto. Qed.

Lemma copyRuns_meant : forall E V fuel made (gs : list (gexp E V)), Forall (harmless (length made)) gs -> forall n st r, ext made st ->
  observed (copyRuns fuel gs n st r) = times n (gall (map (meant fuel made) gs)) r.
Proof.
  intros E V fuel made gs Hh. unfold times. induction n as [|n IH]; intros st r X; [reflexivity|]. cbn [copyRuns repeat gall].
  rewrite observed_bind. unfold gbind at 1.
  pose proof (sound_list _ _ fuel made gs) as A. specialize (A ltac:(apply Forall_forall; intros; apply generate_sound; auto) Hh st r X). unfold agrees in A.
  destruct (gall (map (meant fuel made) gs) r) as [[vs r1]| | |]; cbn; try (rewrite A; reflexivity).
  destruct A as (ls & st1 & -> & F & X1 & _). rewrite observed_bind, (hall_read _ _ _ _ _ r1 F), observed_bind. unfold gbind at 1.
  rewrite <- (IH st1 r1 (ext_trans _ _ _ _ X X1)). destruct (copyRuns fuel gs n st1 r1) as [[[l st2] r2]| | |]; reflexivity.
Qed.

Lemma placeRuns_meant : forall E V fuel made (g : gexp E V) used, harmless (length made) g -> fresh g -> forall n i st r, ext made st ->
  observed (placeRuns fuel g used i n st r) = times n (meant fuel made g) r.
Proof.
  intros E V fuel made g used Hh Hf. unfold times. induction n as [|n IH]; intros i st r X; [reflexivity|]. cbn [placeRuns repeat gall].
  rewrite observed_bind. unfold gbind at 1. pose proof (generate_sound E V fuel made g Hh st r X) as A. unfold agree in A.
  destruct (meant fuel made g r) as [[v r1]| | |]; cbn; try (rewrite A; reflexivity).
  destruct A as (l & st1 & -> & N1 & X1 & F1). rewrite observed_bind. unfold read at 1. rewrite N1. rewrite observed_bind. unfold write at 1. rewrite observed_bind.
  unfold gbind at 1. rewrite <- (IH (S i) (put l (used i v) st1) r1).
  - destruct (placeRuns fuel g used (S i) n (put l (used i v) st1) r1) as [[[x st2] r2]| | |]; reflexivity.
  - eapply ext_trans; [exact X|]. apply put_ext; auto.
Qed.

(** One object for all runs. *)
Fixpoint successive {V} (used : nat -> V -> V) (i n : nat) (v : V) : list V :=
  match n with O => [] | S n' => v :: successive used (S i) n' (used i v) end.
Lemma nth_put : forall V (st : store V) l v, l < length st -> nth_error (put l v st) l = Some v.
Proof. intros V. induction st as [|x st IH]; intros [|l] v L; cbn in *; auto; try lia. apply IH. lia. Qed.
Lemma put_len : forall V (st : store V) l v, length (put l v st) = length st.
Proof. intros V. induction st as [|x st IH]; intros [|l] v; cbn; auto. Qed.
Lemma placeRuns_same : forall E V fuel l used n i (st : store V) (r : rst E) v, nth_error st l = Some v ->
  observed (placeRuns fuel (XSame l) used i n st r) = Ok (successive used i n v, r).
Proof.
  intros E V fuel l used. induction n as [|n IH]; intros i st r v N; [reflexivity|]. cbn [placeRuns generate successive].
  rewrite observed_bind. unfold hret at 1. rewrite observed_bind. unfold read at 1. rewrite N. rewrite observed_bind. unfold write at 1. rewrite observed_bind.
  assert (L : l < length st) by (apply nth_error_Some; congruence).
  specialize (IH (S i) (put l (used i v) st) r (used i v) (nth_put _ _ _ _ L)).
  destruct (placeRuns fuel (XSame l) used (S i) n (put l (used i v) st) r) as [[[x st2] r2]| | |]; cbn in IH |- *; try discriminate. congruence.
Qed.
