(** How likely a stateful test finds a failure. *)
From Coq Require Import String List ZArith QArith Lia Lqa Bool Arith Permutation.
From Verif Require Import Base TreeModel TreeSpec TreeProof RandomModel ContainerModel GenModel EffModel EffSpec ContextModel ContextSpec ContextProof TupleModel TupleProof RunnerModel RunnerSpec RunnerOnProof StatefulModel StatefulSpec.
From Verif Require Import ChanceSpec ChanceProof ChanceLawProof ChanceCombProof ChanceRunProof EndingSpec EndingProof BugChanceSpec.
Import ListNotations.
Local Open Scope Q_scope.

(** ** Leaves of plans *)
Lemma leaves_play : forall E A (P : A -> Prop) (p : plan A), leaves P p -> forall (r : rst E) a r', play p r = Ok (a, r') -> P a.
Proof.
  intros E A P p. induction p as [x|lo hi next IH]; intros H r a r' Hp.
  - destruct x; cbn in *; inversion Hp; subst; auto.
  - cbn [play] in Hp. destruct (Z.leb_spec lo hi); [|discriminate]. eapply IH; [|exact Hp]. apply H. apply unif_range. auto.
Qed.
Lemma leaves_bind : forall A B (P : A -> Prop) (Q : B -> Prop) (p : plan A) k, leaves P p -> (forall a, P a -> leaves Q (k a)) -> leaves Q (pbind p k).
Proof.
  intros A B P Q p k. induction p as [x|lo hi next IH]; intros H K.
  - destruct x; cbn in *; auto.
  - cbn [pbind leaves]. intros z Hz. apply IH; auto.
Qed.
Lemma leaves_true : forall A (p : plan A), leaves (fun _ => True) p.
Proof. intros A p. induction p as [[a| | |]|lo hi next IH]; cbn [leaves]; auto. Qed.
Lemma leaves_weaken : forall A (P Q : A -> Prop) (p : plan A), (forall a, P a -> Q a) -> leaves P p -> leaves Q p.
Proof. intros A P Q p H. induction p as [[a| | |]|lo hi next IH]; cbn [leaves]; auto. Qed.
Lemma leaves_times : forall A (P : A -> Prop) p n, leaves P p -> leaves (Forall P) (times_plan n p).
Proof.
  intros A P p n H. induction n as [|n IH]; cbn [times_plan]; [constructor|]. apply (leaves_bind _ _ P); auto. intros a Ha.
  apply (leaves_bind _ _ (Forall P)); auto. intros l Hl. cbn [leaves]. constructor; auto.
Qed.
Lemma leaves_list : forall A (P : A -> Prop) p mn mx, leaves P p -> leaves (Forall P) (list_plan mn mx p).
Proof. intros A P p mn mx H. cbn [list_plan leaves]. intros z _. apply leaves_times, H. Qed.
Lemma mean_leaves : forall A (P : A -> Prop) (p : plan A) f g, leaves P p -> (forall a, P a -> f (Ok a) == g (Ok a)) -> (forall x, (forall a, x <> Ok a) -> f x == g x) -> mean p f == mean p g.
Proof.
  intros A P p f g. induction p as [x|lo hi next IH]; intros H Hf Hg; cbn [mean].
  - destruct x; cbn [leaves] in H; auto; apply Hg; discriminate.
  - destruct (lo <=? hi)%Z; [|apply Hg; discriminate]. apply average_ext. intros z Hz. apply IH; auto.
Qed.

(** ** Two arguments in either order *)
Lemma mean_average : forall A (p : plan A) lo hi (f : Z -> res A -> Q), (lo <= hi)%Z -> average lo hi (fun z => mean p (f z)) == mean p (fun x => average lo hi (fun z => f z x)).
Proof.
  intros A p lo hi f H.
  assert (S : forall n (g : nat -> res A -> Q), sum n (fun i => mean p (g i)) == mean p (fun x => sum n (fun i => g i x))).
  { intros n g. induction n as [|n IH]; cbn [sum]; [rewrite mean_const; reflexivity|]. rewrite IH, mean_plus. reflexivity. }
  unfold average, Qdiv. rewrite S. rewrite Qmult_comm, <- mean_scale. apply mean_ext. intros x. apply Qmult_comm.
Qed.
Lemma mean_swap : forall A B (p : plan A) (q : plan B) f, mean p (fun x => mean q (fun y => f x y)) == mean q (fun y => mean p (fun x => f x y)).
Proof.
  intros A B p q f. induction p as [x|lo hi next IH]; cbn [mean]; [reflexivity|]. destruct (Z.leb_spec lo hi) as [L|L]; [|reflexivity].
  rewrite (average_ext _ _ _ (fun z => mean q (fun y => mean (next z) (fun x => f x y)))) by (intros z _; apply IH). apply mean_average, L.
Qed.
Lemma order2 : forall ord, order 2 ord -> ord = [0; 1]%nat \/ ord = [1; 0]%nat.
Proof.
  intros ord H. unfold order in H. apply Permutation_sym in H. pose proof (Permutation_length H) as L. destruct ord as [|a [|b [|]]]; try discriminate.
  cbn [seq] in H. apply Permutation_length_2_inv in H. destruct H as [H|H]; inversion H; auto.
Qed.
Lemma mean_zero : forall A (p : plan A) f, (forall x, f x == 0) -> mean p f == 0.
Proof. intros A p f H. rewrite (mean_ext _ _ _ (fun _ => 0) H). apply mean_const. Qed.
Lemma two_mean : forall A ord (p1 p2 : plan (A + err)) (h : A -> A -> Q), order 2 ord ->
  mean (all_plan ord [p1; p2]) (onValue (fun x => match x with inl [a; b] => h a b | _ => 0 end)) ==
  mean p1 (onValue (fun x => match x with inl a => mean p2 (onValue (fun y => match y with inl b => h a b | inr _ => 0 end)) | inr _ => 0 end)).
Proof.
  intros A ord p1 p2 h O. destruct (order2 ord O) as [-> | ->]; unfold all_plan; cbn [map in_plan nth_error].
  - rewrite mean_bind, mean_bind. apply mean_ext. intros [[a|e]| | |]; cbn [over onValue mean]; try reflexivity.
    cbn [set_nth]. rewrite mean_bind. apply mean_ext. intros [[b|e]| | |]; cbn [over onValue mean]; try reflexivity.
  - rewrite mean_bind, mean_bind.
    transitivity (mean p2 (fun y => mean p1 (fun x => match x, y with Ok (inl a), Ok (inl b) => h a b | _, _ => 0 end))).
    + apply mean_ext. intros [[b|e]| | |]; cbn [over onValue mean gather]; [|symmetry; apply mean_zero; intros [[a|e']| | |]; reflexivity..].
      cbn [set_nth]. rewrite mean_bind. apply mean_ext. intros [[a|e]| | |]; reflexivity.
    + rewrite <- mean_swap. apply mean_ext. intros [[a|e]| | |]; cbn [onValue]; [|apply mean_zero; intros [[b|e']| | |]; reflexivity..].
      apply mean_ext. intros [[b|e]| | |]; reflexivity.
Qed.

(** ** forAll on the arguments that occur *)
Section Run.
Context {E : engine} {V W : Type} (ev : env E) (P : property E V W) (beh : list V -> list op * ures) (p : plan (list V + err)) (Q : list V -> Prop).
Context (HP : pure_on Q P beh) (HL : no_leak_on Q beh) (HI : inputs_in Q ev P) (Hp : fits (onLeft (map eroot)) (evalTuple (ord_call ev) (gens P)) p).
Lemma retry_fits_on : forall fuel k (K : rs E V W -> bool), (forall s', failures (cx s') = [] -> Ok (K s') = result (play k (rnd s'))) ->
  forall s, failures (cx s) = [] ->
  Ok (match retryRun fuel ev P s with Ok (SPassed s') => K s' | _ => false end) = result (play (try_plan fuel p (judgeInput beh) k) (rnd s)).
Proof.
  intros fuel k K HK. induction fuel as [|f IH]; intros s Hs; cbn [retryRun try_plan]; [reflexivity|].
  rewrite result_else. rewrite <- (Hp (rnd s)).
  destruct (evalTuple (ord_call ev) (gens P) (rnd s)) as [[[ts|e] r1]| | |] eqn:Ev.
  2: { assert (A : attempt ev P s = Ok (AThrew e, with_rnd r1 s)).
       { unfold attempt. destruct HP as (_ & -> & _). cbn [runHook]. rewrite Ev. reflexivity. }
       rewrite A. cbn [bind seen onLeft]. unfold judgeInput. cbn [judge snd]. destruct e; try reflexivity.
       - apply (IH (with_rnd r1 s) Hs).
       - apply (HK (with_rnd r1 s) Hs). }
  2-4: assert (A : forall x, attempt ev P s <> Ok x) by (intros x; unfold attempt; destruct HP as (_ & -> & _); cbn [runHook]; rewrite Ev; discriminate);
       cbn [seen]; destruct (attempt ev P s) as [[o s1]| | |]; [exfalso; eapply A; reflexivity|reflexivity..].
  pose proof (HI _ _ _ Ev) as HQ.
  rewrite (pure_attempt_on _ _ _ _ _ _ _ _ _ _ HP HQ Ev). cbn [bind seen onLeft]. unfold judgeInput. set (a := map eroot ts) in *.
  assert (F : failures (cx (RunnerPureProof.after beh a r1 s)) = failed_expectations (fst (beh a))) by (unfold RunnerPureProof.after; cbn [cx]; rewrite ContextProof.failures_ops, Hs; reflexivity).
  unfold judge. destruct (snd (beh a)) as [b|e] eqn:Eb; cbn [RunnerPureProof.out].
  - unfold ctx_flush. rewrite F. destruct (failed_expectations (fst (beh a))) as [|f0 fs]; [|reflexivity]. destruct b; [|reflexivity].
    rewrite HK by reflexivity. reflexivity.
  - assert (L : e = EDiscard \/ e = ESuccess -> failures (cx (RunnerPureProof.after beh a r1 s)) = []).
    { intros He. rewrite F. destruct (failed_expectations (fst (beh a))) eqn:Ef; [reflexivity|]. destruct (HL a HQ) as [L1 L2]; [congruence|]. destruct He as [->| ->]; congruence. }
    destruct e; try reflexivity.
    + apply (IH (RunnerPureProof.after beh a r1 s)), L. auto.
    + apply (HK (RunnerPureProof.after beh a r1 s)), L. auto.
Qed.
Lemma runs_fits_on : maxDurationMs P = 0%Z -> forall fuel n i s, failures (cx s) = [] ->
  Ok (match runLoop fuel ev P n i s with Ok (v, _) => succeeded v | _ => false end) = result (play (runs_plan fuel p (judgeInput beh) n) (rnd s)).
Proof.
  intros HD fuel n. induction n as [|n IH]; intros i s Hs; cbn [runLoop runs_plan]; [reflexivity|]. rewrite HD. cbn [Z.eqb negb andb].
  rewrite <- (retry_fits_on fuel (runs_plan fuel p (judgeInput beh) n) (fun s' => match runLoop fuel ev P n (S i) s' with Ok (v, _) => succeeded v | _ => false end)); auto.
  destruct (retryRun fuel ev P s) as [[s'|why saved s']| | |]; cbn [bind]; try reflexivity.
  destruct (shrink ev P (with_rnd saved s')) as [[rep s2]| | |]; reflexivity.
Qed.
End Run.

(** ** Tame code *)
Lemma tame_ret : forall W X (x : X), tame (W := W) (eret x).
Proof. intros W X x. exists [], (inl x). split; [reflexivity|]. split; discriminate. Qed.
Lemma failed_app : forall a b, failed_expectations (a ++ b) = failed_expectations a ++ failed_expectations b.
Proof. intros a b. unfold failed_expectations. apply flat_map_app. Qed.
Lemma tame_bind : forall W X Y (m : eff W X) (f : X -> eff W Y), tame m -> (forall x, tame (f x)) -> tame (ebind m f) /\
  forall w, settles w (ebind m f) = match settles w m with Some x => settles w (f x) | None => None end.
Proof.
  intros W X Y m f (ops & r & Hm & N1 & N2) Hf. destruct r as [x|e].
  - destruct (Hf x) as (ops2 & r2 & Hx & M1 & M2). split.
    + exists (ops ++ ops2), r2. split; [|auto]. intros w. unfold ebind. rewrite Hm, Hx. reflexivity.
    + intros w. unfold settles, ebind. rewrite !Hm, !Hx, failed_app. destruct (failed_expectations ops); cbn [app]; [rewrite Hx; reflexivity|]. destruct r2; reflexivity.
  - split.
    + exists ops, (inr e). split; [|split; congruence]. intros w. unfold ebind. rewrite Hm. reflexivity.
    + intros w. unfold settles, ebind. rewrite !Hm. reflexivity.
Qed.

(** ** A property on an object and a list *)
Section Lists.
Context {O A W : Type} (w : W) (body : O -> list A -> eff W bool) (good : A -> Prop).
Context (Hbody : forall o l, Forall good l -> tame (body o l)).
Definition lbeh (args : list (O + list A)) : list op * ures := fst (on_args body args w).
Definition shapely (args : list (O + list A)) : Prop := exists o l, args = [inl o; inr l] /\ Forall good l.
Lemma lbeh_judge : forall o l, Forall good l -> judge (lbeh [inl o; inr l]) <> JDiscard /\
  (judge (lbeh [inl o; inr l]) = JPass <-> settles w (body o l) = Some true).
Proof.
  intros o l H. destruct (Hbody o l H) as (ops & r & Hr & N1 & N2). unfold lbeh, on_args, settles. rewrite Hr. cbn [fst]. unfold judge. cbn [fst snd].
  destruct r as [b|e]; cbn [snd].
  - destruct (failed_expectations ops); [destruct b|]; split; try split; intros; congruence.
  - destruct e; split; try split; intros; congruence.
Qed.
Definition lplan (ord : list nat) (po : plan (O + err)) (pl : plan (list A)) : plan (list (O + list A) + err) :=
  all_plan ord [pmap (fun x => match x with inl o => inl (inl o) | inr e => inr e end) po; pmap (fun l => inl (inr l)) pl].
Lemma arg_fits : forall E X V (inj : X -> V) (g : xgen E X) p, fits (onLeft eroot) g p ->
  fits (onLeft eroot) (arg_gen inj g) (pmap (fun x => match x with inl o => inl (inj o) | inr e => inr e end) p).
Proof.
  intros E X V inj g p H. apply (fits_bind' _ _ _ _ _ (onLeft eroot) (onLeft eroot) _ _ p (fun x => Ends (Ok (match x with inl o => inl (inj o) | inr e => inr e end)))); [exact H|].
  intros [t|e]; apply fits_ret; [|reflexivity]. cbn [onLeft]. f_equal. destruct t; reflexivity.
Qed.
Lemma pure_fits : forall E X V (inj : X -> V) (g : gen E X) p, fits root g p -> fits (onLeft eroot) (arg_gen inj (pure_gen g)) (pmap (fun l => inl (inj l)) p).
Proof.
  intros E X V inj g p H r. transitivity (seen (onLeft (eroot (E := E))) (gbind g (fun t => gret (inl (emap inj (elift t)))) r)).
  { unfold arg_gen, pure_gen, gbind. destruct (g r) as [[t r']| | |]; reflexivity. }
  apply (fits_bind' _ _ _ _ _ root (onLeft eroot) _ _ p (fun l => Ends (Ok (inl (inj l))))); [exact H|]. intros t. apply fits_ret. cbn [onLeft]. f_equal. destruct t; reflexivity.
Qed.
Lemma lplan_mean : forall ord po pl (h : O -> list A -> Q), order 2 ord ->
  mean (lplan ord po pl) (onValue (fun x => match x with inl [inl o; inr l] => h o l | _ => 0 end)) ==
  mean po (onValue (fun x => match x with inl o => mean pl (onValue (h o)) | inr _ => 0 end)).
Proof.
  intros ord po pl h Ho. unfold lplan.
  rewrite (mean_ext _ _ _ (onValue (fun x => match x with inl [a; b] => match a, b with inl o, inr l => h o l | _, _ => 0 end | _ => 0 end))).
  - rewrite two_mean by exact Ho. unfold pmap. rewrite mean_bind. apply mean_ext. intros [[o|e]| | |]; cbn [over mean onValue]; try reflexivity.
    rewrite mean_bind. apply mean_ext. intros [l| | |]; reflexivity.
  - intros [[[|[o|l] [|[o'|l'] [|c k]]]|e]| | |]; reflexivity.
Qed.
Lemma lplan_leaves : forall ord po pl, order 2 ord -> leaves (Forall good) pl -> leaves (fun x => exists o, x = inl o) po ->
  leaves (fun x => exists args, x = inl args /\ shapely args) (lplan ord po pl).
Proof.
  intros ord po pl Ho Hl Hp. unfold lplan, all_plan. destruct (order2 ord Ho) as [-> | ->]; cbn [map in_plan nth_error].
  - apply (leaves_bind _ _ (fun x => exists o l, x = inl [Some (inl o); Some (inr l)] /\ Forall good l)).
    + apply (leaves_bind _ _ (fun x => exists o, x = inl (inl o))); [apply (leaves_bind _ _ (fun x => exists o, x = inl o)); [exact Hp|intros x [o ->]; cbn; eauto]|].
      intros x [o ->]. cbn [set_nth]. apply (leaves_bind _ _ (fun x => exists l, x = inl (inr l) /\ Forall good l)); [apply (leaves_bind _ _ (Forall good)); [exact Hl|intros l H; cbn; eauto]|].
      intros x [l [-> H]]. cbn. eauto 6.
    + intros x (o & l & -> & H). cbn. unfold shapely. eauto 8.
  - apply (leaves_bind _ _ (fun x => exists o l, x = inl [Some (inl o); Some (inr l)] /\ Forall good l)).
    + apply (leaves_bind _ _ (fun x => exists l, x = inl (inr l) /\ Forall good l)); [apply (leaves_bind _ _ (Forall good)); [exact Hl|intros l H; cbn; eauto]|].
      intros x [l [-> H]]. cbn [set_nth]. apply (leaves_bind _ _ (fun x => exists o, x = inl (inl o))); [apply (leaves_bind _ _ (fun x => exists o, x = inl o)); [exact Hp|intros x [o ->]; cbn; eauto]|].
      intros x [o ->]. cbn. eauto 6.
    + intros x (o & l & -> & H). cbn. unfold shapely. eauto 8.
Qed.

Definition lpass (po : plan (O + err)) (pl : plan (list A)) : Q :=
  mean po (onValue (fun x => match x with inl o => mean pl (onValue (fun l => match settles w (body o l) with Some true => 1 | _ => 0 end)) | inr _ => 0 end)).
Lemma lists_forAll : forall (ev : setting) (P : forall E, property E (O + list A) W) ord (ig : forall E, xgen E O) (lg : forall E, gen E (list A)) po pl fuel n,
  (forall E, func (P E) = on_args body /\ gens (P E) = [arg_gen inl (ig E); arg_gen inr (pure_gen (lg E))] /\ onStartup (P E) = None /\ onCleanup (P E) = None /\
     maxDurationMs (P E) = 0%Z /\ numRuns (P E) = n) ->
  (forall E, ord_call (ev E) = ord) -> order 2 ord -> argumentFollows ig po -> leaves (fun x => exists o, x = inl o) po -> law lg pl -> leaves (Forall good) pl ->
  likelyResult (fun E r => Ok (returnedTrue (runForAll (S fuel) (starting r (ev E)) (P E) w))) (fun b => b) (power (lpass po pl) n) /\
  likelyResult (fun E r => Ok (returnedTrue (runForAll (S fuel) (starting r (ev E)) (P E) w))) negb (1 - power (lpass po pl) n).
Proof.
  intros ev P ord ig lg po pl fuel n HP Hord Ho Hi Hpo Hl Hpl. set (p := lplan ord po pl).
  assert (Lv := lplan_leaves ord po pl Ho Hpl Hpo). fold p in Lv.
  assert (Fit : forall E, fits (onLeft (map eroot)) (evalTuple (ord_call (ev E)) (gens (P E))) p).
  { intros E. destruct (HP E) as (_ & -> & _). rewrite Hord. apply all_fits. constructor; [apply arg_fits; exact (Hi E)|]. constructor; [apply pure_fits; exact (Hl E)|constructor]. }
  assert (R : prob (runs_plan (S fuel) p (judgeInput lbeh) n) (fun b => b) == power (lpass po pl) n).
  { rewrite runs_prob. apply power_ext.
    assert (D : prob p (fun x => judged (judgeInput lbeh x) false) == 0).
    { unfold prob. rewrite (mean_leaves _ _ p _ (fun _ => 0) Lv); [apply mean_const| |].
      - intros x (args & -> & (o & l & -> & Hg)). cbn [when]. unfold judgeInput. destruct (lbeh_judge o l Hg) as [J _]. destruct (judge (lbeh [inl o; inr l])); cbn [judged negb]; try reflexivity. congruence.
      - intros [x| | |] Hx; try reflexivity. exfalso. eapply Hx. reflexivity. }
    assert (T : prob p (fun x => judged (judgeInput lbeh x) true) == lpass po pl).
    { unfold lpass. unfold p. rewrite <- (lplan_mean ord po pl (fun o l => match settles w (body o l) with Some true => 1 | _ => 0 end) Ho). fold p.
      unfold prob. apply (mean_leaves _ _ p _ _ Lv).
      - intros x (args & -> & (o & l & -> & Hg)). cbn [when onValue]. unfold judgeInput. destruct (lbeh_judge o l Hg) as [_ J].
        destruct (judge (lbeh [inl o; inr l])); cbn [judged negb]; destruct (settles w (body o l)) as [[|]|]; try reflexivity;
          try (destruct J as [J1 J2]; (discriminate (J1 eq_refl) || discriminate (J2 eq_refl))).
      - intros [x| | |] Hx; try reflexivity. exfalso. eapply Hx. reflexivity. }
    rewrite T. cbn [series]. generalize (series (prob p (fun x => judged (judgeInput lbeh x) false)) fuel). intros z. rewrite D. ring. }
  assert (L : forall E r, Ok (returnedTrue (runForAll (S fuel) (starting r (ev E)) (P E) w)) = result (play (E := E) (runs_plan (S fuel) p (judgeInput lbeh) n) r)).
  { intros E r. destruct (HP E) as (F1 & F2 & F3 & F4 & F5 & F6). unfold runForAll. rewrite F6.
    refine (runs_fits_on (starting r (ev E)) (P E) lbeh p shapely _ _ _ (Fit E) F5 (S fuel) n 0 {| rnd := r; cx := newctx; wd := w; lg := [] |} eq_refl).
    - split; [|auto]. intros args w0 (o & l & -> & Hg). rewrite F1. unfold lbeh, on_args. destruct (Hbody o l Hg) as (ops & u & Hu & _). rewrite !Hu. reflexivity.
    - intros args (o & l & -> & Hg) _. unfold lbeh, on_args. destruct (Hbody o l Hg) as (ops & u & Hu & N1 & N2). rewrite Hu. cbn [fst snd].
      destruct u as [b|e]; split; congruence.
    - intros r0 ts r1 Ht. pose proof (Fit E r0) as K. cbn [ord_call starting] in Ht. rewrite Ht in K. cbn [seen onLeft] in K. symmetry in K.
      apply (leaves_play E _ _ p Lv) in K. destruct K as (args & X & Hs). inversion X; subst. exact Hs. }
  split; exists (runs_plan (S fuel) p (judgeInput lbeh) n); (split; [exact L|]); [exact R|]. rewrite sure_not by apply runs_sure. rewrite R. reflexivity.
Qed.
End Lists.

(** ** Steps *)
Lemma outlasts_mean : forall A S (step : A -> S -> option S) ok pa n st,
  mean (times_plan n pa) (onValue (fun l => match walks step l st with Some st' => tells ok st' | None => 0 end)) == outlasts step ok pa n st.
Proof.
  intros A S step ok pa n. induction n as [|n IH]; intros st; cbn [times_plan outlasts]; [reflexivity|]. rewrite mean_bind. apply mean_ext.
  intros [a| | |]; cbn [over onValue]; try reflexivity. rewrite mean_bind. destruct (step a st) as [st'|] eqn:E.
  - rewrite <- IH. apply mean_ext. intros [l| | |]; cbn [over mean onValue walks]; try reflexivity. rewrite E. reflexivity.
  - rewrite (mean_ext _ _ _ (fun _ => 0)); [apply mean_const|]. intros [l| | |]; cbn [over mean onValue walks]; try reflexivity. rewrite E. reflexivity.
Qed.
Lemma survival_pass : forall A S O W (w : W) (body : O -> list A -> eff W bool) (good : A -> Prop) (step : A -> S -> option S) (ok : S -> bool) (start : O -> option S) mn mx po pa, (mn <= mx)%Z -> leaves good pa ->
  (forall o l, Forall good l -> settles w (body o l) = match start o with Some st => match walks step l st with Some st' => if ok st' then Some true else None | None => None end | None => None end) ->
  lpass w body po (list_plan mn mx pa) == survival step ok start mn mx po pa.
Proof.
  intros A S O W w body good step ok start mn mx po pa Hm Hg Hb. unfold lpass, survival. apply mean_ext. intros [[o|e]| | |]; cbn [onValue]; try reflexivity.
  rewrite (mean_leaves _ _ (list_plan mn mx pa) _ (onValue (fun l => match start o with Some st => match walks step l st with Some st' => tells ok st' | None => 0 end | None => 0 end)) (leaves_list _ good pa mn mx Hg)).
  - destruct (start o) as [st|].
    + unfold list_plan. cbn [mean]. destruct (Z.leb_spec mn mx); [|lia]. apply average_ext. intros k _. apply outlasts_mean.
    + rewrite (mean_ext _ _ _ (fun _ => 0)); [apply mean_const|]. intros [l| | |]; reflexivity.
  - intros l Hl. cbn [onValue]. rewrite (Hb o l Hl). destruct (start o) as [st|]; [|reflexivity]. destruct (walks step l st) as [st'|]; [|reflexivity]. unfold tells. destruct (ok st'); reflexivity.
  - intros [l| | |] H; try reflexivity. exfalso. eapply H. reflexivity.
Qed.

(** ** The function-based interface *)
Lemma applyAll_tame : forall O M W (good : action O M W -> Prop), (forall a o m, good a -> tame (a_func a o m)) -> forall l, Forall good l -> forall o m, tame (applyAll l o m) /\
  forall w, settles w (applyAll l o m) = walks (actionStep w) l (o, m).
Proof.
  intros O M W good Hg l Hl. induction Hl as [|a l Ha Hl IH]; intros o m; cbn [applyAll walks].
  - split; [apply tame_ret|]. reflexivity.
  - match goal with |- tame (ebind ?X1 ?X2) /\ _ => destruct (tame_bind W _ _ X1 X2 (Hg a o m Ha)) as [T1 T2] end; [intros [o' m']; apply IH|].
    split; [exact T1|]. intros w. rewrite T2. unfold actionStep at 1. cbn [fst snd]. destruct (settles w (a_func a o m)) as [[o' m']|]; [|reflexivity]. apply IH.
Qed.
Lemma body_tame : forall O M W (good : action O M W -> Prop) factory post, (forall a o m, good a -> tame (a_func a o m)) -> (forall o, tame (factory o)) ->
  (forall f o m, post = Some f -> tame (f o m)) -> forall o l, Forall good l -> tame (statefulBody factory post o l) /\
  forall w, settles w (statefulBody factory post o l) =
    match settles w (factory o) with Some st => match walks (actionStep w) l st with Some st' => if checkOk w post st' then Some true else None | None => None end | None => None end.
Proof.
  intros O M W good factory post Hg Hf Hp o l Hl.
  assert (C : forall o2 m2, tame (ebind (match post with Some f => f o2 m2 | None => eret tt end) (fun _ => eret (W := W) true)) /\
    forall w, settles w (ebind (match post with Some f => f o2 m2 | None => eret tt end) (fun _ => eret (W := W) true)) = if checkOk w post (o2, m2) then Some true else None).
  { intros o2 m2. destruct (tame_bind W _ _ (match post with Some f => f o2 m2 | None => eret tt end) (fun _ => eret true)) as [T1 T2].
    - destruct post as [f|] eqn:Ep; [apply (Hp f); reflexivity|apply tame_ret].
    - intros _. apply tame_ret.
    - split; [exact T1|]. intros w. rewrite T2. unfold checkOk. cbn [fst snd]. destruct post as [f|]; [destruct (settles w (f o2 m2)); reflexivity|reflexivity]. }
  assert (B : forall o1 m1, tame (ebind (applyAll l o1 m1) (fun '(obj2, model2) => ebind (match post with Some f => f obj2 model2 | None => eret tt end) (fun _ => eret true))) /\
    forall w, settles w (ebind (applyAll l o1 m1) (fun '(obj2, model2) => ebind (match post with Some f => f obj2 model2 | None => eret tt end) (fun _ => eret true))) =
      match walks (actionStep w) l (o1, m1) with Some st' => if checkOk w post st' then Some true else None | None => None end).
  { intros o1 m1. destruct (applyAll_tame O M W good Hg l Hl o1 m1) as [A1 A2].
    match goal with |- tame (ebind ?X1 ?X2) /\ _ => destruct (tame_bind W _ _ X1 X2 A1) as [T1 T2] end.
    - intros [o2 m2]. apply C.
    - split; [exact T1|]. intros w. rewrite T2, A2. destruct (walks (actionStep w) l (o1, m1)) as [[o2 m2]|]; [apply C|reflexivity]. }
  unfold statefulBody. match goal with |- tame (ebind ?X1 ?X2) /\ _ => destruct (tame_bind W _ _ X1 X2 (Hf o)) as [T1 T2] end.
  - intros [o1 m1]. apply B.
  - split; [exact T1|]. intros w. rewrite T2. destruct (settles w (factory o)) as [[o1 m1]|]; [apply B|reflexivity].
Qed.

(** ** The class-based interface *)
Lemma classLoop_tame : forall O M W (good : caction O M W -> Prop), (forall a o m, good a -> tame (precondition2 a o m) /\ tame (run2 a o m)) -> forall l, Forall good l -> forall o m,
  tame (classLoop2 l o m) /\ forall w, settles w (classLoop2 l o m) = walks (classStep w) l (o, m).
Proof.
  intros O M W good Hg l Hl. induction Hl as [|a l Ha Hl IH]; intros o m; cbn [classLoop2 walks].
  - split; [apply tame_ret|]. reflexivity.
  - destruct (Hg a o m Ha) as [G1 G2].
    assert (A3 : forall b : bool, forall o' m', tame (ebind (prop_assert b) (fun _ => classLoop2 l o' m')) /\
      forall w, settles w (ebind (prop_assert b) (fun _ => classLoop2 l o' m')) = if b then walks (classStep w) l (o', m') else None).
    { intros b o' m'. destruct (tame_bind W _ _ (prop_assert b) (fun _ => classLoop2 l o' m')) as [T1 T2].
      - destruct b; [apply tame_ret|]. exists [], (inr EAssert). split; [reflexivity|]. split; discriminate.
      - intros _. apply IH.
      - split; [exact T1|]. intros w. rewrite T2. destruct b; [apply IH|reflexivity]. }
    assert (A2 : tame (ebind (run2 a o m) (fun '(obj', model', b) => ebind (prop_assert b) (fun _ => classLoop2 l obj' model'))) /\
      forall w, settles w (ebind (run2 a o m) (fun '(obj', model', b) => ebind (prop_assert b) (fun _ => classLoop2 l obj' model'))) =
        match settles w (run2 a o m) with Some (o', m', true) => walks (classStep w) l (o', m') | _ => None end).
    { match goal with |- tame (ebind ?X1 ?X2) /\ _ => destruct (tame_bind W _ _ X1 X2 G2) as [T1 T2] end; [intros [[o' m'] b]; apply A3|].
      split; [exact T1|]. intros w. rewrite T2. destruct (settles w (run2 a o m)) as [[[o' m'] b]|]; [|reflexivity]. rewrite (proj2 (A3 b o' m')). destruct b; reflexivity. }
    match goal with |- tame (ebind ?X1 ?X2) /\ _ => destruct (tame_bind W _ _ X1 X2 G1) as [T1 T2] end.
    { intros [|]; [apply A2|apply IH]. }
    split; [exact T1|]. intros w. rewrite T2. unfold classStep at 1. cbn [fst snd]. destruct (settles w (precondition2 a o m)) as [[|]|]; [|apply IH|reflexivity].
    rewrite (proj2 A2). destruct (settles w (run2 a o m)) as [[[o' m'] [|]]|]; reflexivity.
Qed.
Lemma class_tame : forall O M W (good : caction O M W -> Prop) factory, (forall a o m, good a -> tame (precondition2 a o m) /\ tame (run2 a o m)) -> (forall o, tame (factory o)) ->
  forall o l, Forall good l -> tame (classBody2 factory o l) /\
  forall w, settles w (classBody2 factory o l) =
    match settles w (factory o) with Some st => match walks (classStep w) l st with Some st' => if accepts st' then Some true else None | None => None end | None => None end.
Proof.
  intros O M W good factory Hg Hf o l Hl.
  assert (B : forall o1 m1, tame (ebind (classLoop2 l o1 m1) (fun _ => eret true)) /\
    forall w, settles w (ebind (classLoop2 l o1 m1) (fun _ => eret true)) = match walks (classStep w) l (o1, m1) with Some st' => if accepts st' then Some true else None | None => None end).
  { intros o1 m1. destruct (classLoop_tame O M W good Hg l Hl o1 m1) as [A1 A2]. destruct (tame_bind W _ _ (classLoop2 l o1 m1) (fun _ => eret true) A1) as [T1 T2]; [intros _; apply tame_ret|].
    split; [exact T1|]. intros w. rewrite T2, A2. destruct (walks (classStep w) l (o1, m1)); reflexivity. }
  unfold classBody2. match goal with |- tame (ebind ?X1 ?X2) /\ _ => destruct (tame_bind W _ _ X1 X2 (Hf o)) as [T1 T2] end.
  - intros [o1 m1]. apply B.
  - split; [exact T1|]. intros w. rewrite T2. destruct (settles w (factory o)) as [[o1 m1]|]; [apply B|reflexivity].
Qed.

Lemma classLoop1_tame : forall O M W (good : caction O M W -> Prop), (forall a o, good a -> tame (precondition1 a o) /\ tame (run1 a o)) -> forall l, Forall good l -> forall o,
  tame (classLoop1 l o) /\ forall w, settles w (classLoop1 l o) = walks (classStep1 w) l o.
Proof.
  intros O M W good Hg l Hl. induction Hl as [|a l Ha Hl IH]; intros o; cbn [classLoop1 walks].
  - split; [apply tame_ret|]. reflexivity.
  - destruct (Hg a o Ha) as [G1 G2].
    assert (A3 : forall b : bool, forall o', tame (ebind (prop_assert b) (fun _ => classLoop1 l o')) /\
      forall w, settles w (ebind (prop_assert b) (fun _ => classLoop1 l o')) = if b then walks (classStep1 w) l o' else None).
    { intros b o'. destruct (tame_bind W _ _ (prop_assert b) (fun _ => classLoop1 l o')) as [T1 T2].
      - destruct b; [apply tame_ret|]. exists [], (inr EAssert). split; [reflexivity|]. split; discriminate.
      - intros _. apply IH.
      - split; [exact T1|]. intros w. rewrite T2. destruct b; [apply IH|reflexivity]. }
    assert (A2 : tame (ebind (run1 a o) (fun '(obj', b) => ebind (prop_assert b) (fun _ => classLoop1 l obj'))) /\
      forall w, settles w (ebind (run1 a o) (fun '(obj', b) => ebind (prop_assert b) (fun _ => classLoop1 l obj'))) =
        match settles w (run1 a o) with Some (o', true) => walks (classStep1 w) l o' | _ => None end).
    { match goal with |- tame (ebind ?X1 ?X2) /\ _ => destruct (tame_bind W _ _ X1 X2 G2) as [T1 T2] end; [intros [o' b]; apply A3|].
      split; [exact T1|]. intros w. rewrite T2. destruct (settles w (run1 a o)) as [[o' b]|]; [|reflexivity]. rewrite (proj2 (A3 b o')). destruct b; reflexivity. }
    match goal with |- tame (ebind ?X1 ?X2) /\ _ => destruct (tame_bind W _ _ X1 X2 G1) as [T1 T2] end.
    { intros [|]; [apply A2|apply IH]. }
    split; [exact T1|]. intros w. rewrite T2. unfold classStep1 at 1. destruct (settles w (precondition1 a o)) as [[|]|]; [|apply IH|reflexivity].
    rewrite (proj2 A2). destruct (settles w (run1 a o)) as [[o' [|]]|]; reflexivity.
Qed.
Lemma class1_tame : forall O M W (good : caction O M W -> Prop), (forall a o, good a -> tame (precondition1 a o) /\ tame (run1 a o)) ->
  forall o l, Forall good l -> tame (classBody1 o l) /\
  forall w, settles w (classBody1 o l) = match Some o with Some st => match walks (classStep1 w) l st with Some st' => if accepts st' then Some true else None | None => None end | None => None end.
Proof.
  intros O M W good Hg o l Hl. destruct (classLoop1_tame O M W good Hg l Hl o) as [A1 A2]. destruct (tame_bind W _ _ (classLoop1 l o) (fun _ => eret true) A1) as [T1 T2]; [intros _; apply tame_ret|].
  split; [exact T1|]. intros w. unfold classBody1. rewrite T2, A2. destruct (walks (classStep1 w) l o); reflexivity.
Qed.

(** ** Bounds *)
Lemma mean_le : forall A (P : A -> Prop) (p : plan A) f g, leaves P p -> (forall a, P a -> f (Ok a) <= g (Ok a)) -> (forall x, (forall a, x <> Ok a) -> f x <= g x) -> mean p f <= mean p g.
Proof.
  intros A P p f g. induction p as [x|lo hi next IH]; intros H Hf Hg; cbn [mean].
  - destruct x; cbn [leaves] in H; auto; apply Hg; discriminate.
  - destruct (Z.leb_spec lo hi) as [L|L]; [|apply Hg; discriminate]. apply average_le; [exact L|]. intros z Hz. apply IH; auto.
Qed.
Lemma prob_le1 : forall A (p : plan A) ev, prob p ev <= 1.
Proof. intros. apply prob_range. Qed.
Lemma outlasts_well : forall A S (step : A -> S -> option S) ok pa n st, outlasts step ok pa n st == prob (times_plan n pa) (fun l => walksWell step ok l st).
Proof.
  intros A S step ok pa n st. rewrite <- outlasts_mean. apply mean_ext. intros [l| | |]; cbn [onValue when]; try reflexivity. unfold walksWell, tells.
  destruct (walks step l st); reflexivity.
Qed.
Lemma times_leaves : forall A (p : plan A) n, leaves (fun l => length l = n) (times_plan n p).
Proof.
  intros A p n. induction n as [|n IH]; cbn [times_plan]; [reflexivity|]. apply (leaves_bind _ _ (fun _ => True)); [apply leaves_true|]. intros a _.
  apply (leaves_bind _ _ (fun l => length l = n)); [exact IH|]. intros l <-. reflexivity.
Qed.
Lemma leaves_and : forall A (P Q : A -> Prop) (p : plan A), leaves P p -> leaves Q p -> leaves (fun a => P a /\ Q a) p.
Proof. intros A P Q p. induction p as [[a| | |]|lo hi next IH]; cbn [leaves]; auto. Qed.
Lemma times_sure : forall A (p : plan A) n, prob p anything == 1 -> prob (times_plan n p) anything == 1.
Proof.
  intros A p n H. rewrite (prob_ext _ _ _ (forallb anything)); [rewrite times_all, (power_ext _ _ _ H); apply power_one|]. intros l. induction l as [|a l IHl]; [reflexivity|exact IHl].
Qed.
Lemma begins_prob : forall A (p : plan A) evs, prob p anything == 1 -> forall n, (length evs <= n)%nat -> prob (times_plan n p) (begins evs) == product (map (prob p) evs).
Proof.
  intros A p evs H. induction evs as [|ev evs IH]; intros n Hn.
  - change (product (map (prob p) [])) with 1. apply times_sure, H.
  - destruct n as [|n]; [cbn in Hn; lia|]. cbn [times_plan map]. change (product (prob p ev :: map (prob p) evs)) with (prob p ev * product (map (prob p) evs)).
    apply prob_bind_and. intros x. change (pbind (times_plan n p) (fun xs => Ends (Ok (x :: xs)))) with (pmap (cons x) (times_plan n p)). rewrite prob_map. cbn [begins].
    rewrite (prob_ext _ _ _ (fun l => begins evs l && ev x)%bool) by (intros; apply andb_comm). rewrite prob_and_const. destruct (ev x); [apply IH; cbn in Hn; lia|reflexivity].
Qed.
Lemma outlasts_begins : forall A S (step : A -> S -> option S) ok (good : A -> Prop) pa evs st, prob pa anything == 1 -> leaves good pa ->
  (forall l, Forall good l -> begins evs l = true -> walksWell step ok l st = false) -> forall n, (length evs <= n)%nat -> outlasts step ok pa n st <= 1 - product (map (prob pa) evs).
Proof.
  intros A S step ok good pa evs st H HL Hb n Hn. rewrite outlasts_well, <- (begins_prob A pa evs H n Hn).
  assert (X : prob (times_plan n pa) (fun l => walksWell step ok l st) + prob (times_plan n pa) (begins evs) <= 1); [|lra].
  unfold prob. rewrite <- mean_plus. rewrite <- (mean_const _ (times_plan n pa) 1). apply (mean_le _ _ _ _ _ (leaves_times _ good pa n HL)).
  - intros l Hl. cbn [when]. destruct (begins evs l) eqn:B; [rewrite (Hb l Hl B); lra|]. destruct (walksWell step ok l st); lra.
  - intros [l| | |] Hx; cbn [when]; try lra. exfalso. eapply Hx. reflexivity.
Qed.
Lemma sure_value : forall A (P : A -> Prop) (p : plan A) f c, prob p anything == 1 -> leaves P p -> (forall a, P a -> f a == c) -> mean p (onValue f) == c.
Proof.
  intros A P p f c H L Hf. rewrite (mean_leaves _ P p _ (fun x => c * when anything x) L).
  - rewrite mean_scale. fold (prob p anything). rewrite H. ring.
  - intros a Ha. cbn [onValue when anything]. rewrite (Hf a Ha). ring.
  - intros [a| | |] Hx; cbn [onValue when]; try ring. exfalso. eapply Hx. reflexivity.
Qed.
Lemma sure_value_le : forall A (P : A -> Prop) (p : plan A) f c, 0 <= c -> leaves P p -> (forall a, P a -> f a <= c) -> mean p (onValue f) <= c.
Proof.
  intros A P p f c H L Hf. apply Qle_trans with (mean p (fun _ => c)); [|rewrite mean_const; lra]. apply (mean_le _ P); auto.
  intros [a| | |] Hx; try exact H. exfalso. eapply Hx. reflexivity.
Qed.
Lemma outlasts_steady : forall A S (step : A -> S -> option S) ok pa q, (forall st, ok st = true) ->
  (forall st, prob pa (fun a => match step a st with Some _ => true | None => false end) == q) -> forall n st, outlasts step ok pa n st == power q n.
Proof.
  intros A S step ok pa q Hok Hq n. induction n as [|n IH]; intros st; cbn [outlasts power]; [unfold tells; rewrite Hok; reflexivity|].
  rewrite (mean_ext _ _ _ (fun x => power q n * when (fun a => match step a st with Some _ => true | None => false end) x)).
  - rewrite mean_scale. fold (prob pa (fun a => match step a st with Some _ => true | None => false end)). rewrite Hq. ring.
  - intros [a| | |]; cbn [onValue when]; try ring. destruct (step a st) as [st'|]; [rewrite IH; ring|ring].
Qed.
Lemma outlasts_all : forall A S (step : A -> S -> option S) ok (good : A -> Prop) pa n st, prob pa anything == 1 -> leaves good pa ->
  (forall l, Forall good l -> length l = n -> walksWell step ok l st = true) -> outlasts step ok pa n st == 1.
Proof.
  intros A S step ok good pa n st H L Hw. rewrite outlasts_well. unfold prob.
  rewrite (mean_leaves _ _ (times_plan n pa) _ (when anything) (leaves_and _ _ _ _ (leaves_times _ good pa n L) (times_leaves _ pa n))).
  - apply times_sure, H.
  - intros l [Hl Hn]. cbn [when]. rewrite (Hw l Hl Hn). reflexivity.
  - intros [l| | |] Hx; try reflexivity. exfalso. eapply Hx. reflexivity.
Qed.
