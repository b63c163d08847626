(** Lemmas about Concurrency::go. *)
From Coq Require Import List ZArith Bool Lia Arith.
From Verif Require Import Base RandomModel ContextModel EffModel RunnerModel ConcModel ConcSpec ConcGoModel ConcGoSpec.
Import ListNotations.
Local Open Scope list_scope.

Lemma bind_ok : forall A B (x : res A) (f : A -> res B) y, bind x f = Ok y -> exists a, x = Ok a /\ f a = Ok y.
Proof. intros A B x f y H. destruct x; cbn in H; try discriminate. eauto. Qed.
Lemma gbind_ok : forall E A B (g : G E A) (f : A -> G E B) r y, gbind g f r = Ok y -> exists a r', g r = Ok (a, r') /\ f a r' = Ok y.
Proof. intros E A B g f r y H. unfold gbind in H. destruct (g r) as [[a r']| | |]; try discriminate. eauto. Qed.

(** A real run: some interleaving of the actions, from the object in some context and world. *)
Definition real {E Ob M W} (C : conc E Ob M W) (x : gev Ob M (act (shared Ob W) M)) : Prop :=
  match x with
  | GRun obj m f r o => exists cw tr c, outcome (g_api C) f r (g_check C) (obj, cw) m tr c /\ iend c = o /\ length r = rearCount C
  | _ => True
  end.
Definition matches {E Ob M W} (C : conc E Ob M W) (x : gev Ob M (act (shared Ob W) M)) (v : (Ob * list (list (act (shared Ob W) M))) + err) : Prop :=
  match x with
  | GRun obj m f r _ => exists o0, v = inl (o0, f :: r) /\ (g_factory C = None -> obj = o0)
  | _ => True
  end.

Lemma genLists_length : forall E A n (g : xgen E A) r l r', genLists n g r = Ok (inl l, r') -> length l = n.
Proof.
  intros E A. induction n as [|n IH]; intros g r l r' H; cbn in H.
  - injection H as <- <-. auto.
  - apply gbind_ok in H as ([t|e] & r1 & H1 & H2); [|discriminate]. apply gbind_ok in H2 as ([l1|e] & r2 & H2 & H3); [|discriminate].
    injection H3 as <- <-. cbn. f_equal. eauto.
Qed.

Lemma runActions_real : forall E Ob M W sched (C : conc E Ob M W) obj m cw f r rr s o s',
  runActions sched C obj m cw f r rr s = (o, s') -> length r = rearCount C ->
  gs_log s' = gs_log s ++ [GRun obj m f r o] /\ gs_rnd s' = rr /\ gs_calls s' = S (gs_calls s) /\ real C (GRun obj m f r o).
Proof.
  intros E Ob M W sched C obj m cw f r rr s o s' H L. unfold runActions in H. injection H as <- <-. cbn. split; auto. split; auto. split; auto.
  exists cw. exists (fst (run (g_api C) f (g_check C) sched (start (obj, cw) m r))). eexists. split; [eexists; apply surjective_pairing|]. auto.
Qed.

Lemma invoke_ok : forall E Ob M W sched (C : conc E Ob M W) s o s', invoke sched C s = Ok (o, s') ->
  gs_calls s' = S (gs_calls s) /\
  exists x, gs_log s' = gs_log s ++ [x] /\ real C x /\ ((exists obj m f r, x = GRun obj m f r o) \/ (exists e, x = GNoRun e /\ o = IThrew e)) /\
    (g_api C = Func \/ g_factory C = None -> exists v, inputs C (gs_rnd s) = Ok (v, gs_rnd s') /\ matches C x v).
Proof.
  intros E Ob M W sched C s o s' H. unfold invoke in H. apply bind_ok in H as ([x r1] & Hx & H). unfold inputs, gbind at 1. rewrite Hx.
  destruct x as [t|e].
  2: { injection H as <- <-. split; [auto|]. exists (GNoRun e). split; [auto|]. split; [exact I|]. split; [right; eauto|]. intros _. eexists. split; [reflexivity|exact I]. }
  destruct (g_api C) eqn:Ha.
  - apply bind_ok in H as ([y r2] & Hy & H). destruct y as [ls|e].
    2: { injection H as <- <-. split; [auto|]. exists (GNoRun e). split; [auto|]. split; [exact I|]. split; [right; eauto|]. intros _. unfold gbind. rewrite Hy. eexists. split; [reflexivity|exact I]. }
    assert (L := genLists_length _ _ _ _ _ _ _ Hy). destruct ls as [|f r]; [discriminate|]. injection L as L.
    destruct (makeModel C _) as [[m|e] [obj cw']] eqn:Hm.
    + assert (H' : runActions sched C obj m cw' f r r2 s = (o, s')) by (cbn [hd tl] in H; congruence).
      destruct (runActions_real _ _ _ _ _ _ _ _ _ _ _ _ _ _ _ H' L) as (E1 & E2 & E3 & E4). split; [auto|]. exists (GRun obj m f r o). split; [auto|]. split; [auto|].
      split; [left; eauto|]. intros _. unfold gbind. rewrite Hy, E2. eexists. split; [reflexivity|]. cbn. eexists. split; [reflexivity|].
      intros F. unfold makeModel in Hm. rewrite F in Hm. congruence.
    + injection H as <- <-. split; [auto|]. exists (GNoRun e). split; [auto|]. split; [exact I|]. split; [right; eauto|]. intros _. unfold gbind. rewrite Hy. eexists. split; [reflexivity|exact I].
  - destruct (makeModel C _) as [[m|e] [obj cw']] eqn:Hm.
    2: { injection H as <- <-. split; [auto|]. exists (GNoRun e). split; [auto|]. split; [exact I|]. split; [right; eauto|].
         intros [F|F]; [discriminate|]. unfold makeModel in Hm. rewrite F in Hm. discriminate. }
    apply bind_ok in H as ([y r2] & Hy & H). destruct y as [ls|e].
    2: { injection H as <- <-. split; [auto|]. exists (GNoRun e). split; [auto|]. split; [exact I|]. split; [right; eauto|]. intros _. unfold gbind. rewrite Hy. eexists. split; [reflexivity|exact I]. }
    assert (L := genLists_length _ _ _ _ _ _ _ Hy). destruct ls as [|f r]; [discriminate|]. injection L as L.
    assert (H' : runActions sched C obj m cw' f r r2 s = (o, s')) by (cbn [hd tl] in H; congruence).
    destruct (runActions_real _ _ _ _ _ _ _ _ _ _ _ _ _ _ _ H' L) as (E1 & E2 & E3 & E4). split; [auto|]. exists (GRun obj m f r o). split; [auto|]. split; [auto|].
    split; [left; eauto|]. intros _. unfold gbind. rewrite Hy, E2. eexists. split; [reflexivity|]. cbn. eexists. split; [reflexivity|].
    intros F. unfold makeModel in Hm. rewrite F in Hm. congruence.
Qed.

Lemma gHook_ok : forall E Ob M W h e (s : gs E Ob M W) r s', gHook h e s = (r, s') ->
  gs_log s' = gs_log s ++ called (has h) (e r) /\ gs_rnd s' = gs_rnd s /\ gs_calls s' = gs_calls s /\ (has h = false -> r = None).
Proof.
  intros E Ob M W h e s r s' H. unfold gHook in H. destruct h as [f|].
  - destruct (f (gs_wd s)) as [[ops q] w]. injection H as <- <-. cbn. repeat split; auto. discriminate.
  - injection H as <- <-. cbn. rewrite app_nil_r. auto.
Qed.

(** Engine states reached by the calls of invoke. *)
Inductive drawn {E Ob M W} (C : conc E Ob M W) : rst E -> list (gev Ob M (act (shared Ob W) M)) -> rst E -> Prop :=
| drawn_nil : forall r, drawn C r [] r
| drawn_cons : forall r x v r' l r2, inputs C r = Ok (v, r') -> matches C x v -> drawn C r' l r2 -> drawn C r (x :: l) r2.
Lemma drawn_app : forall E Ob M W (C : conc E Ob M W) r l r' l' r2, drawn C r l r' -> drawn C r' l' r2 -> drawn C r (l ++ l') r2.
Proof. intros E Ob M W C r l r' l' r2 H. revert l' r2. induction H; intros; cbn; auto. econstructor; eauto. Qed.

(** What a piece of go has added to the log. *)
Definition grown {E Ob M W} (C : conc E Ob M W) (s s' : gs E Ob M W) (l : list (gev Ob M (act (shared Ob W) M))) : Prop :=
  gs_log s' = gs_log s ++ l /\ Forall (real C) l /\ (g_api C = Func \/ g_factory C = None -> drawn C (gs_rnd s) (invocations l) (gs_rnd s')).
Lemma grown_trans : forall E Ob M W (C : conc E Ob M W) s s' s2 l l', grown C s s' l -> grown C s' s2 l' -> grown C s s2 (l ++ l').
Proof.
  intros E Ob M W C s s' s2 l l' (A1 & A2 & A3) (B1 & B2 & B3). unfold grown. split; [rewrite B1, A1, app_assoc; auto|]. split; [apply Forall_app; auto|].
  intros H. unfold invocations. rewrite filter_app. eapply drawn_app; [apply A3|apply B3]; auto.
Qed.

Lemma gattempt_ok : forall E Ob M W sched (C : conc E Ob M W) s o s', gattempt sched C s = Ok (o, s') ->
  exists l, grown C s s' l /\ try_ (has (g_startup C)) (has (g_cleanup C)) l o.
Proof.
  intros E Ob M W sched C s o s' H. unfold gattempt in H. destruct (gHook (g_startup C) GStartup s) as [r s1] eqn:H1.
  apply gHook_ok in H1. destruct H1 as (L1 & R1 & _ & N1). destruct r as [e|].
  { injection H as <- <-. destruct (has (g_startup C)) eqn:Hs; [|discriminate (N1 eq_refl)]. cbn in L1. eexists. split; [split; [eauto|split]|constructor; auto].
    - repeat constructor.
    - intros _. cbn. rewrite R1. constructor. }
  apply bind_ok in H as ([o2 s2] & H2 & H). apply invoke_ok in H2. destruct H2 as (_ & x & L2 & X2 & D2 & I2). rewrite L1, <- app_assoc in L2.
  assert (G2 : grown C s s2 (called (has (g_startup C)) (GStartup None) ++ [x])).
  { split; auto. split.
    - apply Forall_app. split; [destruct (has (g_startup C)); repeat constructor|auto].
    - intros F. unfold invocations. rewrite filter_app. replace (filter _ (called _ _)) with (@nil (gev Ob M (act (shared Ob W) M))) by (destruct (has (g_startup C)); auto).
      rewrite <- R1. destruct (I2 F) as (v & I3 & I4). destruct D2 as [(ob & m & f & q & ->)|(e & -> & _)]; cbn; econstructor; eauto; constructor. }
  destruct D2 as [(ob & m & f & q & ->)|(e & -> & ->)].
  - assert (N : o2 <> IReturned -> exists l, grown C s s2 l /\ try_ (has (g_startup C)) (has (g_cleanup C)) l o2) by (intros; eexists; split; eauto; constructor; auto).
    destruct o2; try (injection H as <- <-; apply N; discriminate). clear N.
    destruct (gHook (g_cleanup C) GCleanup s2) as [r3 s3] eqn:H3. apply gHook_ok in H3. destruct H3 as (L3 & R3 & _ & N3).
    assert (G3 : grown C s s3 ((called (has (g_startup C)) (GStartup None) ++ [GRun ob m f q IReturned]) ++ called (has (g_cleanup C)) (GCleanup r3))).
    { eapply grown_trans; eauto. split; auto. split; [destruct (has (g_cleanup C)); repeat constructor|]. intros _. rewrite R3.
      destruct (has (g_cleanup C)); cbn; constructor. }
    rewrite <- app_assoc in G3. cbn [app] in G3. destruct r3 as [e|]; injection H as <- <-; eexists; (split; [exact G3|]).
    + destruct (has (g_cleanup C)) eqn:Hc; [|discriminate (N3 eq_refl)]. cbn [called]. constructor; auto.
    + apply try_done.
  - injection H as <- <-. eexists. split; eauto. constructor.
Qed.

(** How a counted run ends. *)
Definition one_of (o : iout) : gone :=
  match o with
  | IReturned | IThrew ESuccess => OPass
  | IThrew EDiscard => OUnfinished
  | IThrew ENonStd => OEscaped
  | IThrew e => OFail e
  | ITerminated e => OTerminated e
  | IUndefined => OUndefined
  | IUnfinished => OUnfinished
  end.
Lemma gretry_ok : forall E Ob M W fuel sched (C : conc E Ob M W) s o s', gretry fuel sched C s = Ok (o, s') ->
  exists l io, grown C s s' l /\ counted (has (g_startup C)) (has (g_cleanup C)) l io /\ o = one_of io.
Proof.
  intros E Ob M W. induction fuel as [|fuel IH]; intros sched C s o s' H; cbn [gretry] in H; [discriminate|].
  apply bind_ok in H as ([io s1] & H1 & H). apply gattempt_ok in H1. destruct H1 as (l & G1 & T1).
  assert (D : io <> IThrew EDiscard -> o = one_of io -> s1 = s' -> exists l io, grown C s s' l /\ counted (has (g_startup C)) (has (g_cleanup C)) l io /\ o = one_of io).
  { intros N -> <-. exists l, io. split; auto. split; auto. constructor; auto. }
  destruct io as [|e|e| |]; try (injection H as <- <-; apply D; auto; discriminate).
  destruct e; try (injection H as <- <-; apply D; auto; discriminate).
  apply IH in H. destruct H as (l2 & io & G2 & T2 & ->). exists (l ++ l2), io. split; [eapply grown_trans; eauto|]. split; auto. apply counted_more; auto.
Qed.

Lemma counted_not_discard : forall Ob M A hs hc (l : list (gev Ob M A)) o, counted hs hc l o -> o <> IThrew EDiscard.
Proof. intros Ob M A hs hc l o H. induction H; auto. Qed.

(** What go does. *)
Definition account {E Ob M W} (ev : env E) (C : conc E Ob M W) (n i : nat) (l : list (gev Ob M (act (shared Ob W) M))) (o : gout) : Prop :=
  let hs := has (g_startup C) in let hc := has (g_cleanup C) in
  (o = GPassed (g_runs C) /\ passing hs hc n l) \/
  (exists k, o = GTimedOut (i + k) /\ k < n /\ passing hs hc k l /\ (g_duration C <> 0 /\ g_duration C < elapsed ev (i + k))%Z) \/
  (exists k l1 l2 io, o = verdict_of (S (i + k)) io /\ k < n /\ l = l1 ++ l2 /\ passing hs hc k l1 /\ counted hs hc l2 io /\ io <> IReturned /\ io <> IThrew ESuccess).

Lemma passing_app1 : forall Ob M A hs hc k (l l' : list (gev Ob M A)) o, counted hs hc l o -> o = IReturned \/ o = IThrew ESuccess -> passing hs hc k l' -> passing hs hc (S k) (l ++ l').
Proof.
  intros Ob M A hs hc k l l' o H Ho P. induction P.
  - rewrite app_nil_r. apply (passing_S hs hc 0 [] l o); auto. constructor.
  - rewrite app_assoc. eapply passing_S; eauto.
Qed.

Lemma gloop_ok : forall E Ob M W fuel ev sched (C : conc E Ob M W) n i s o s', gloop fuel ev sched C n i s = Ok (o, s') ->
  exists l, grown C s s' l /\ account ev C n i l o.
Proof.
  intros E Ob M W fuel ev sched C. induction n as [|n IH]; intros i s o s' H; cbn [gloop] in H.
  - injection H as <- <-. exists []. split; [split; [rewrite app_nil_r; auto|split; auto; intros _; constructor]|]. left. split; auto. constructor.
  - destruct (negb (g_duration C =? 0)%Z && (g_duration C <? elapsed ev i)%Z) eqn:Ht.
    + injection H as <- <-. apply andb_prop in Ht. destruct Ht as [T1 T2]. exists []. split; [split; [rewrite app_nil_r; auto|split; auto; intros _; constructor]|].
      right. left. exists 0. rewrite Nat.add_0_r. split; auto. split; [lia|]. split; [constructor|]. split; [|lia]. intros E0. rewrite E0 in T1. discriminate.
    + apply bind_ok in H as ([q s1] & H1 & H). apply gretry_ok in H1. destruct H1 as (l & io & G1 & C1 & ->).
      assert (ND := counted_not_discard _ _ _ _ _ _ _ C1).
      assert (F : verdict_of (S i) io = o /\ s1 = s' /\ io <> IReturned /\ io <> IThrew ESuccess -> exists l, grown C s s' l /\ account ev C (S n) i l o).
      { intros (<- & <- & N1 & N2). exists l. split; auto. right. right. exists 0, [], l, io. rewrite Nat.add_0_r. split; auto. split; [lia|]. split; auto. split; [constructor|]. auto. }
      assert (P : (io = IReturned \/ io = IThrew ESuccess) -> gloop fuel ev sched C n (S i) s1 = Ok (o, s') -> exists l, grown C s s' l /\ account ev C (S n) i l o).
      { intros Hio Hg. apply IH in Hg. destruct Hg as (l2 & G2 & A2). exists (l ++ l2). split; [eapply grown_trans; eauto|].
        destruct A2 as [[-> P2]|[(k & -> & K & P2 & D2)|(k & l3 & l4 & io4 & -> & K & -> & P2 & C2 & N2)]].
        - left. split; auto. eapply passing_app1; eauto.
        - right. left. exists (S k). rewrite Nat.add_succ_r. split; auto. split; [lia|]. split; auto. eapply passing_app1; eauto.
        - right. right. exists (S k), (l ++ l3), l4, io4. rewrite Nat.add_succ_r. split; auto. split; [lia|]. split; [apply app_assoc|]. split; auto. eapply passing_app1; eauto. }
      destruct io as [|e|e| |]; cbn [one_of] in H; try (apply P; auto; fail); try (injection H as <- <-; apply F; repeat split; discriminate).
      destruct e; cbn [one_of] in H; try (apply P; auto; fail); try (injection H as <- <-; apply F; repeat split; discriminate).
Qed.

Lemma gogo_ok : forall E Ob M W fuel ev sched (C : conc E Ob M W) w o s, gogo fuel ev sched C w = Ok (o, s) ->
  account ev C (Z.to_nat (g_runs C)) 0 (gs_log s) o /\ Forall (real C) (gs_log s) /\
  (g_api C = Func \/ g_factory C = None -> exists r, drawn C (seeded ev (g_seed C)) (invocations (gs_log s)) r).
Proof.
  intros E Ob M W fuel ev sched C w o s H. apply gloop_ok in H. destruct H as (l & (L & R & D) & A). cbn in L. subst l. split; auto. split; auto. intros F. eexists. apply D, F.
Qed.

(** * Events and endings *)

Lemma try_endings : forall Ob M A hs hc (l : list (gev Ob M A)) o, try_ hs hc l o ->
  exists l' x, l = l' ++ [x] /\ Forall (fun y => ending y = IReturned) l' /\ ending x = o.
Proof.
  intros Ob M A hs hc l o H. assert (CS : forall h, Forall (fun y : gev Ob M A => ending y = IReturned) (called h (GStartup None))) by (intros []; repeat constructor).
  destruct H.
  - exists [], (GStartup (Some e)). auto.
  - eexists _, _. split; [reflexivity|]. auto.
  - eexists _, _. split; [reflexivity|]. auto.
  - exists (called hs (GStartup None) ++ [GRun o m f r IReturned]), (GCleanup (Some e)). split; [rewrite <- app_assoc; auto|]. split; auto. apply Forall_app; auto.
  - destruct hc; cbn [called].
    + exists (called hs (GStartup None) ++ [GRun o m f r IReturned]), (GCleanup None). split; [rewrite <- app_assoc; auto|]. split; auto. apply Forall_app; auto.
    + eexists _, _. split; [reflexivity|]. auto.
Qed.
Lemma counted_endings : forall Ob M A hs hc (l : list (gev Ob M A)) o, counted hs hc l o ->
  exists l' x, l = l' ++ [x] /\ Forall (fun y => ending y = IReturned \/ ending y = IThrew EDiscard) l' /\ ending x = o.
Proof.
  intros Ob M A hs hc l o H. induction H as [l o T N|l l' o T N IH].
  - apply try_endings in T. destruct T as (l' & x & -> & F & E). exists l', x. split; auto. split; auto. eapply Forall_impl; [|apply F]. cbn. auto.
  - apply try_endings in T. destruct T as (l1 & x1 & -> & F1 & E1). destruct IH as (l2 & x2 & -> & F2 & E2). exists ((l1 ++ [x1]) ++ l2), x2. split; [apply app_assoc|].
    split; auto. apply Forall_app. split; auto. apply Forall_app. split; [eapply Forall_impl; [|apply F1]; cbn; auto|]. constructor; auto.
Qed.
Lemma passing_harmless : forall Ob M A hs hc k (l : list (gev Ob M A)), passing hs hc k l -> Forall (fun x => harmless (ending x)) l.
Proof.
  intros Ob M A hs hc k l H. induction H as [|k l l' o P IH Hc Ho]; auto. apply Forall_app. split; auto. apply counted_endings in Hc.
  destruct Hc as (l1 & x & -> & F & E). apply Forall_app. split.
  - eapply Forall_impl; [|apply F]. cbn. unfold harmless. intros a [->| ->]; auto.
  - constructor; auto. rewrite E. unfold harmless. destruct Ho as [->| ->]; auto.
Qed.
