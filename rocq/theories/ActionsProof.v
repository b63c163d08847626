(** Proofs about the search for a simplest failing list of actions. *)
From Coq Require Import List ZArith Lia Bool Permutation.
From Verif Require Import Base TreeModel TreeSpec TreeProof RandomModel TupleModel TupleProof BinSearchProof IntegralModel IntegralSpec IntegralProof
  ListModel ListSpec ListProof ListBulkProof ListMainProof ContainerModel ContainerSpec ContainerProof
  EffModel EffSpec EffProof ContextModel ContextSpec ContextProof RunnerModel RunnerSpec RunnerProof RunnerPureProof RunnerOnProof RunnerShrinkProof
  SearchSpec SearchProof ListSearchSpec ListSearchProof PropContainer PropRun PropSearch StatefulModel StatefulSpec StatefulProof ActionsSpec.
Import ListNotations.
Local Open Scope list_scope.

(** * Shrinking calls the property on values it can meet only *)

Section Swap.
Context {E : engine} {V W : Type} (P P' : property E V W) (qs : list (V -> Prop)).
Hypothesis Hg : gens P' = gens P.
Hypothesis Hst : onStartup P' = onStartup P.
Hypothesis Hcl : onCleanup P' = onCleanup P.
Hypothesis Hf : forall args w, Forall2 (fun q a => q a) qs args -> func P' args w = func P args w.

Lemma set_nth_each : forall (n : nat) (v : V) l q, Forall2 (fun q a => q a) qs l -> nth_error qs n = Some q -> q v -> Forall2 (fun q a => q a) qs (set_nth n v l).
Proof.
  intros n v l q H. revert n. clear -H. induction H as [|q0 a qs l Ha H IH]; intros [|n] Hn Hv; simpl in *; try discriminate; constructor; auto.
  - inversion Hn; subst; auto.
Qed.
Lemma eset_nth_each : forall (n : nat) (v : etree E V) l q, Forall2 (fun q a => eall q a) qs l -> nth_error qs n = Some q -> eall q v -> Forall2 (fun q a => eall q a) qs (set_nth n v l).
Proof.
  intros n v l q H. revert n. clear -H. induction H as [|q0 a qs l Ha H IH]; intros [|n] Hn Hv; simpl in *; try discriminate; constructor; auto.
  - inversion Hn; subst; auto.
Qed.
Lemma eall_root : forall (q : V -> Prop) (t : etree E V), eall q t -> q (eroot t).
Proof. intros q t H. apply H. apply ereach_refl. Qed.
Lemma each_roots : forall l, Forall2 (fun q (a : etree E V) => eall q a) qs l -> Forall2 (fun q a => q a) qs (map eroot l).
Proof. clear. induction 1; simpl; constructor; auto. apply eall_root. auto. Qed.

Lemma test_swap : forall N cur v c s q, Forall2 (fun q a => eall q a) qs cur -> nth_error qs N = Some q -> q v -> test P' N cur v c s = test P N cur v c s.
Proof.
  intros N cur v c s q Hc Hq Hv. unfold test. rewrite Hst. destruct (runHook (onStartup P) EStartup (with_cx c s)) as [[e|] s1]; auto.
  unfold callFunc. rewrite Hf by (eapply set_nth_each; eauto; apply each_roots; auto). destruct (func P _ _) as [[ops u] w1].
  destruct u as [b|e]; auto. rewrite Hcl. auto.
Qed.

Lemma shrink_swap_tree : forall N q, nth_error qs N = Some q ->
  (forall t cur s, eall q t -> Forall2 (fun q a => eall q a) qs cur -> shrinkTree P' N cur t s = shrinkTree P N cur t s) /\
  (forall st cur c s, (forall h, selem st h -> eall q h) -> Forall2 (fun q a => eall q a) qs cur -> shrinkStream P' N cur c st s = shrinkStream P N cur c st s).
Proof.
  intros N q Hq. apply etree_ind3.
  - intros a shr IH cur s Ha Hc. simpl. destruct (shr (rnd s)) as [[st r']| | |] eqn:Es; auto. apply (IH _ _ _ Es); auto.
    intros h Hh u Hu. apply Ha. eapply (ereach_step (ENode a shr)); eauto.
  - intros cur c s _ _. reflexivity.
  - intros h tl IHh IHt cur c s He Hc. simpl. destruct (tl (rnd s)) as [[st' r']| | |] eqn:Et; auto.
    assert (Hh : eall q h) by (apply He; constructor).
    rewrite (test_swap N cur (eroot h) c _ q) by (auto; apply eall_root; auto). destruct (test P N cur (eroot h) c (with_rnd r' s)) as [[[b c'] s2]| | |]; auto. simpl.
    destruct (negb b || hasFailures c').
    + apply IHh; auto. eapply eset_nth_each; eauto.
    + apply (IHt _ _ _ Et); auto. intros h' Hh'. apply He. eapply selem_later; eauto.
Qed.

Lemma shrinkTree_each : forall N q, nth_error qs N = Some q ->
  (forall t cur s cur' s', eall q t -> Forall2 (fun q a => eall q a) qs cur -> shrinkTree P N cur t s = Ok (cur', s') -> Forall2 (fun q a => eall q a) qs cur') /\
  (forall st cur c s cur' s', (forall h, selem st h -> eall q h) -> Forall2 (fun q a => eall q a) qs cur -> shrinkStream P N cur c st s = Ok (cur', s') -> Forall2 (fun q a => eall q a) qs cur').
Proof.
  intros N q Hq. apply etree_ind3.
  - intros a shr IH cur s cur' s' Ha Hc H. simpl in H. destruct (shr (rnd s)) as [[st r']| | |] eqn:Es; try discriminate. eapply (IH _ _ _ Es); eauto.
    intros h Hh u Hu. apply Ha. eapply (ereach_step (ENode a shr)); eauto.
  - intros cur c s cur' s' _ Hc H. inversion H; subst; auto.
  - intros h tl IHh IHt cur c s cur' s' He Hc H. simpl in H. destruct (tl (rnd s)) as [[st' r']| | |] eqn:Et; try discriminate.
    assert (Hh : eall q h) by (apply He; constructor).
    destruct (test P N cur (eroot h) c (with_rnd r' s)) as [[[b c'] s2]| | |]; try discriminate. simpl in H.
    destruct (negb b || hasFailures c').
    + eapply IHh; [exact Hh| |exact H]. eapply eset_nth_each; eauto.
    + eapply (IHt _ _ _ Et); [|exact Hc|exact H]. intros h' Hh'. apply He. eapply selem_later; eauto.
Qed.

Lemma shrinkEach_swap : forall ord streams cur s,
  (forall N st q h, nth_error streams N = Some st -> nth_error qs N = Some q -> selem st h -> eall q h) -> length streams = length qs ->
  Forall2 (fun q a => eall q a) qs cur -> shrinkEach P' ord streams cur s = shrinkEach P ord streams cur s.
Proof.
  induction ord as [|N ord IH]; intros streams cur s He Hl Hc; simpl; auto. destruct (nth_error streams N) as [st|] eqn:Es; auto.
  destruct (nth_error qs N) as [q|] eqn:Eq; [|apply nth_error_None in Eq; rewrite <- Hl in Eq; apply nth_error_None in Eq; congruence].
  rewrite (proj2 (shrink_swap_tree N q Eq)) by eauto. destruct (shrinkStream P N cur newctx st s) as [[cur' s']| | |] eqn:Ec; auto. simpl.
  apply IH; auto. eapply (proj2 (shrinkTree_each N q Eq)); eauto.
Qed.

(** The generators draw only values, and offer only shrinks, satisfying [qs]. *)
Hypothesis Hgen : Forall2 (fun q (g : xgen E V) => forall r t r', g r = Ok (inl t, r') -> eall q t) qs (gens P).

Lemma drawn_each : forall ord r ts r1, evalTuple ord (gens P) r = Ok (inl ts, r1) -> Forall2 (fun q a => eall q a) qs ts.
Proof.
  intros ord r ts r1 H. apply evalTuple_ok in H. destruct H as [L N].
  clear -Hgen L N. revert ts L N. induction Hgen as [|q g qs gs Hq Hr IH]; intros [|t ts] L N; try discriminate; constructor.
  - destruct (N 0 t eq_refl) as [f [r0 [r1 [F1 F2]]]]. inversion F1; subst. eauto.
  - apply IH; [exact Hr|auto|]. intros i a Ha. apply (N (S i) a Ha).
Qed.

Lemma shrink_swap : forall ev s, shrink ev P' s = shrink ev P s.
Proof.
  intros ev s. unfold shrink. rewrite Hg. destruct (evalTuple (ord_regen ev) (gens P) (rnd s)) as [[[ts|e] r1]| | |] eqn:E1; auto. cbn [bind].
  destruct (evalTuple (ord_shrinks ev) _ r1) as [[[streams|e] r2]| | |] eqn:E2; auto. cbn [bind].
  pose proof (drawn_each _ _ _ _ E1) as Hts. destruct (streams_linked _ _ _ _ _ _ _ E2) as [L1 L2].
  rewrite shrinkEach_swap; auto.
  - intros N st q h Hs Hq Hh. assert (HN : N < length ts) by (rewrite <- L1; eapply nth_error_lt; eauto).
    destruct (L2 N HN) as [t [st' [r [r' [T1 [T2 T3]]]]]]. assert (st' = st) by congruence. subst st'.
    assert (Ht : eall q t). { clear -Hts Hq T1. revert N Hq T1. induction Hts as [|q0 a qs l Ha H IH]; intros [|N] Hq T1; try discriminate; simpl in *; [inversion Hq; inversion T1; subst; auto|eauto]. }
    intros u Hu. apply Ht. eapply ereach_step; eauto.
  - rewrite L1. clear -Hts. induction Hts; simpl; auto.
Qed.

Lemma shrinkEach_each : forall ord streams cur s cur' s',
  (forall N st q h, nth_error streams N = Some st -> nth_error qs N = Some q -> selem st h -> eall q h) -> length streams = length qs ->
  Forall2 (fun q a => eall q a) qs cur -> shrinkEach P ord streams cur s = Ok (cur', s') -> Forall2 (fun q a => eall q a) qs cur'.
Proof.
  induction ord as [|N ord IH]; intros streams cur s cur' s' He Hl Hc H; simpl in H; [inversion H; subst; auto|].
  destruct (nth_error streams N) as [st|] eqn:Es; [|discriminate].
  destruct (nth_error qs N) as [q|] eqn:Eq; [|apply nth_error_None in Eq; rewrite <- Hl in Eq; apply nth_error_None in Eq; congruence].
  destruct (shrinkStream P N cur newctx st s) as [[cur1 s1]| | |] eqn:Ec; try discriminate. simpl in H.
  eapply IH; [exact He|exact Hl| |exact H]. eapply (proj2 (shrinkTree_each N q Eq)); eauto.
Qed.
Lemma shrink_each : forall ev s rep s', shrink ev P s = Ok (rep, s') -> Forall2 (fun q a => q a) qs (simplest_args rep).
Proof.
  intros ev s rep s' H. pose proof (shrink_inv _ _ _ _ _ _ _ _ H) as [ts [r2 [streams [r3 [ts' [H1 [H2 [H3 [H4 H5]]]]]]]]].
  rewrite H5. apply each_roots. pose proof (drawn_each _ _ _ _ H1) as Hts. destruct (streams_linked _ _ _ _ _ _ _ H2) as [L1 L2].
  eapply shrinkEach_each; [| |exact Hts|exact H3].
  - intros N st q h Hs Hq Hh. assert (HN : N < length ts) by (rewrite <- L1; eapply nth_error_lt; eauto).
    destruct (L2 N HN) as [t [st' [r [r' [T1 [T2 T3]]]]]]. assert (st' = st) by congruence. subst st'.
    assert (Ht : eall q t). { clear -Hts Hq T1. revert N Hq T1. induction Hts as [|q0 a qs l Ha H IH]; intros [|N] Hq T1; try discriminate; simpl in *; [inversion Hq; inversion T1; subst; auto|eauto]. }
    intros u Hu. apply Ht. eapply ereach_step; eauto.
  - rewrite L1. clear -Hts. induction Hts; simpl; auto.
Qed.
End Swap.

(** * Embedded arguments *)

Lemma emap_elist : forall E A B (f : A -> B) (ts : list (tree A)), Forall (fun t => emap f (elift (E := E) t) = elift (map_tree f t)) ts ->
  emap_s f (elist (E := E) ts) = elist (map (map_tree f) ts).
Proof. intros E A B f. induction 1 as [|t ts Ht H IH]; auto. cbn [elist emap_s map]. rewrite Ht. unfold gbind, gret. rewrite IH. reflexivity. Qed.
Lemma emap_elift : forall E A B (f : A -> B) (t : tree A), emap f (elift (E := E) t) = elift (map_tree f t).
Proof.
  intros E A B f. induction t as [a ts IH] using tree_ind'. rewrite !elift_eq. cbn [emap root shrinks map_tree]. unfold gbind, gret at 1.
  rewrite emap_elist by auto. reflexivity.
Qed.

Definition carries {E V A} (inj : A -> V) (g : gen E A) (x : xgen E V) : Prop :=
  forall r t r', x r = Ok (inl t, r') -> exists u, g r = Ok (u, r') /\ t = elift (map_tree inj u).
Lemma arg_pure_carries : forall E V A (inj : A -> V) (g : gen E A), carries inj g (arg_gen inj (pure_gen g)).
Proof.
  intros E V A inj g r t r' H. unfold arg_gen in H. apply gbind_ok in H. destruct H as [x [r1 [H1 H2]]]. unfold pure_gen in H1. apply gbind_ok in H1.
  destruct H1 as [u [r2 [H3 H4]]]. unfold gret in *. inversion H4; subst. inversion H2; subst. exists u. split; auto. apply emap_elift.
Qed.

(** * The search at one position, the property being pure on the values it can meet *)
Lemma falsified_scan_on : forall E V W fuel ev (P : property E V W) qs beh w n why rep s' A (inj : A -> V) (g : gen E A) gN o1 N o2,
  pure_on (Forall2 (fun q a => q a) qs) P beh -> no_leak_on (Forall2 (fun q a => q a) qs) beh ->
  Forall2 (fun q (g : xgen E V) => forall r t r', g r = Ok (inl t, r') -> eall q t) qs (gens P) ->
  quiet (gens P) -> ord_regen ev = ord_call ev -> order (length (gens P)) (ord_each ev) ->
  nth_error (gens P) N = Some gN -> carries inj g gN -> ord_each ev = o1 ++ N :: o2 ->
  runForAll fuel ev P w = Ok (VFalsified n why rep, s') ->
  exists q q' t tried found, g q = Ok (t, q') /\
    nth_error (with_args rep) N = Some (inj (root t)) /\ nth_error (simplest_args rep) N = Some (inj (root (ending t found))) /\
    length (with_args rep) = length (gens P) /\ length (simplest_args rep) = length (gens P) /\
    Forall2 (fun q a => q a) qs (with_args rep) /\ Forall2 (fun q a => q a) qs (simplest_args rep) /\ bad beh (simplest_args rep) /\
    let fails x := bad beh (set_nth N (inj x) (partly o1 (simplest_args rep) (with_args rep))) in
    fails (root t) /\ scan fails (shrinks t) tried found.
Proof.
  intros E V W fuel ev P qs beh w n why rep s' A inj g gN o1 N o2 HP Hnl Hgen Hq Ho Hoe HgN Hcar Ho1 H.
  assert (Hin : inputs_in (Forall2 (fun q a => q a) qs) ev P).
  { intros r ts r1 Hev. apply each_roots. eapply drawn_each; eauto. }
  apply runLoop_ok in H. destruct H as [ks [s0 [s1 [Hh [Hfa [_ [_ [_ Hs]]]]]]]].
  destruct (history_pure_on _ _ _ _ _ _ _ _ _ _ HP Hin Hq Hnl Hh eq_refl) as [Hcx _].
  destruct (falsifies_pure_on _ _ _ _ _ _ _ _ _ _ HP Hin Hq Hfa Hcx) as [ts0 [r0 [Ev [Hj _]]]].
  set (P' := {| func := fun args (w : W) => (fst (beh args), snd (beh args), w); gens := gens P; onStartup := None; onCleanup := None;
                numRuns := numRuns P; maxDurationMs := maxDurationMs P; seed := seed P |}).
  destruct HP as [HP1 [HP2 HP3]].
  assert (HP' : pure_property P' beh) by (split; [reflexivity|split; reflexivity]).
  assert (Hsw : forall s, shrink ev P' s = shrink ev P s).
  { intros s. apply (shrink_swap P P' qs); auto. intros args w0 Hargs. rewrite HP1; auto. }
  pose proof (shrink_each P qs Hgen _ _ _ _ Hs) as Hsim.
  rewrite <- Hsw in Hs. clear Hsw.
  pose proof (shrink_inv _ _ _ _ _ _ _ _ Hs) as [ts [r2 [streams [r3 [ts' [H1 [H2 [H3 [H4 H5]]]]]]]]]. cbn [gens P'] in H1.
  assert (Hts : ts0 = ts). { rewrite Ho in H1. cbn [rnd with_rnd] in H1. congruence. } subst ts0. rewrite <- H4 in Hj.
  assert (Hbad : bad beh (with_args rep)).
  { unfold judge, bad in *. destruct (snd (beh (with_args rep))) as [b|e]; [|left; discriminate].
    destruct (failed_expectations (fst (beh (with_args rep)))); [|right; discriminate]. destruct b; [discriminate|left; discriminate]. }
  assert (Hlen : length ts = length (gens P)) by (eapply evalTuple_length; eauto).
  destruct (streams_linked _ _ _ _ _ _ _ H2) as [_ Hl].
  assert (Hlk : forall M, In M (ord_each ev) -> linked_to streams ts M) by (intros M HM; apply Hl; apply (order_in _ _ Hoe) in HM; lia).
  destruct (shrinkEach_pure _ _ _ _ _ HP' _ _ _ _ _ _ H3 (order_nodup _ _ Hoe) Hlk) as [I1 _].
  assert (Hst : bad beh (partly o1 (simplest_args rep) (with_args rep))).
  { rewrite H4, H5, <- map_partly by auto. rewrite Ho1 in H3. eapply stage_bad; eauto; rewrite <- ?Ho1; auto.
    - eapply order_nodup; eauto.
    - intros i. rewrite Hlen. apply order_in. auto.
    - rewrite <- H4. auto. }
  assert (Hend : bad beh (simplest_args rep)).
  { assert (Hp : partly (ord_each ev) (simplest_args rep) (with_args rep) = simplest_args rep).
    { apply nth_error_ext. intros j. rewrite partly_nth by (rewrite H4, H5, !map_length; auto). destruct (existsb (Nat.eqb j) (ord_each ev)) eqn:Ej; auto.
      assert (Hnj : ~ In j (ord_each ev)) by (intros Hj'; apply existsb_in in Hj'; congruence). rewrite (order_in _ _ Hoe) in Hnj.
      rewrite (proj2 (nth_error_None _ _)), (proj2 (nth_error_None _ _)); auto; rewrite ?H4, ?H5, map_length; lia. }
    rewrite <- Hp, H4, H5, <- map_partly by auto. rewrite <- (app_nil_r (ord_each ev)) in H3. eapply stage_bad; eauto; rewrite ?app_nil_r; auto.
    - eapply order_nodup; eauto.
    - intros i. rewrite Hlen. apply order_in. auto.
    - rewrite <- H4. auto. }
  destruct (C66_search _ _ _ _ P' _ _ _ _ _ _ HP' Hoe H1 Hs) as [logs [_ [_ L3]]].
  assert (HN : (N < length (gens P))%nat) by (eapply nth_error_lt; eauto).
  destruct (nth_error ts N) as [x|] eqn:Ex; [|apply nth_error_None in Ex; lia].
  destruct (evalTuple_ok _ _ _ _ _ _ _ H1) as [_ Hev]. destruct (Hev N x Ex) as [f [q [q' [F1 F2]]]].
  assert (Hff : Some f = Some gN) by (transitivity (nth_error (gens P) N); [symmetry; exact F1|exact HgN]). inversion Hff; subst f.
  destruct (Hcar _ _ _ F2) as [t [T1 ->]].
  destruct (L3 o1 N o2 _ Ho1 Ex) as [tried [found [S1 [S2 [S3 _]]]]].
  rewrite shrinks_map in S1. apply scan_map in S1. destruct S1 as [tr [fo [S1 [-> ->]]]]. rewrite ending_map, !root_map in *.
  exists q, q', t, tr, fo. split; auto. split; auto. split; auto.
  split; [rewrite H4, map_length; auto|]. split; [rewrite H5, map_length; rewrite I1; auto|].
  assert (Hqs : Forall2 (fun q (a : EffModel.etree E V) => eall q a) qs ts) by (eapply drawn_each; eauto).
  split; [rewrite H4; apply each_roots; auto|]. split; [exact Hsim|].
  split; [auto|]. split; auto.
  rewrite set_nth_same; auto. rewrite H4, H5 in *. rewrite partly_nth by (rewrite !map_length; auto).
  destruct (existsb (Nat.eqb N) o1) eqn:Ein; auto. exfalso. apply existsb_in in Ein.
  pose proof (order_nodup _ _ Hoe) as Hnd. rewrite Ho1 in Hnd. eapply NoDup_app_not; [exact Hnd| |exact Ein]. left. auto.
Qed.

(** * Lists *)

Lemma sublists_min_in : forall X m (F : list X) s, In s (filter (fun s => m <=? length s) (sublists F)) -> In s (sublists F).
Proof. intros X m F s H. apply filter_In in H. tauto. Qed.

(* the first phase bisects the length of the prefix kept; what follows keeps its last element *)
Lemma mtree_cut : forall X (fails : list X -> Prop) (l : list X) m tried found,
  (size l <= INT64_MAX)%Z -> m <= length l -> scan fails (shrinks (mtree l m)) tried found ->
  fails l -> prefixes_stay_failing fails m l -> cut_off fails m l (root (ending (mtree l m) found)).
Proof.
  intros X fails l m tried found Hs Hm H Hfl Hpre.
  assert (Emt : mtree l m = pm (S (length l)) (l ++ []) m (length (@nil X))) by (unfold mtree; rewrite app_nil_r; reflexivity).
  rewrite Emt in *. pose proof H as H0. rewrite pm_S in H. cbn [length] in H. rewrite Nat.sub_0_r in H.
  rewrite pm_S. cbn [length]. rewrite Nat.sub_0_r. set (d := length l - m) in *.
  apply scan_concat in H. destruct H as [tr1 [fo1 [tr2 [fo2 [S1 [S2 [S3 S4]]]]]]]. rewrite S4. clear S4.
  rewrite shrinks_map in S1. apply scan_map in S1. destruct S1 as [trz [foz [B [E1 E2]]]].
  subst fo1. rewrite ending_map in S2 |- *. rewrite root_map in S2. set (ez := ending (bs_abs (Z.of_nat d)) foz) in *.
  unfold size, INT64_MAX in Hs.
  assert (Hz : (0 <= root ez <= Z.of_nat d)%Z).
  { pose proof (scan_reach _ _ _ _ _ B _ eq_refl) as Hr. apply reach_root_in in Hr. apply bs_abs_in in Hr; auto. unfold Base.UINT64_MAX, d.
 lia. }
  set (k := Z.to_nat (root ez) + m) in *. assert (Hk : m <= k <= length l) by (unfold k, d in *; lia).
  assert (Hval : forall z, firstn (Z.to_nat z + m) (l ++ []) ++ [] = firstn (Z.to_nat z + m) l) by (intros z; rewrite !app_nil_r; reflexivity).
  assert (Hroot : forall fo, root (ending (map_tree (fun z => firstn (Z.to_nat z + m) (l ++ []) ++ []) ez) fo) = root (ending (Node (firstn k l) []) fo)).
  { intros [u|]; simpl; auto. rewrite root_map, Hval. reflexivity. }
  rewrite Hroot. rewrite !app_nil_r in S2.
  destruct (bs_finds _ _ _ _ B) as [_ [G2 G3]].
  { unfold Base.UINT64_MAX, d. lia. }
  { cbv beta. rewrite Hval. replace (Z.to_nat (Z.of_nat d) + m) with (length l) by (unfold d; lia). rewrite firstn_all. auto. }
  { intros x y Hxy Hy. cbv beta. rewrite !Hval. apply Hpre; unfold d in *; lia. }
  cbv beta in G2, G3. fold ez in G2, G3. fold k in G2. rewrite !app_nil_r in G2.
  assert (G4 : forall j, m <= j < k -> ~ fails (firstn j l)).
  { intros j Hj. specialize (G3 (Z.of_nat (j - m))). rewrite Hval in G3. replace (Z.to_nat (Z.of_nat (j - m)) + m) with j in G3 by lia. apply G3. unfold k in Hj. lia. }
  clear G3 Hval Hroot E1 B. clearbody k. clear ez Hz foz trz. rename Hfl into Hfull.
  assert (Hlen : length (firstn k l) = k) by (rewrite firstn_length; lia).
  unfold pm_ext in S2. rewrite Hlen in S2. cbn [length] in S2.
  destruct (Nat.leb_spec k m) as [Hlm|Hlm].
  { cbn [orb] in S2. inversion S2; subst. cbn [ending root]. assert (k = m) by lia. subst k. apply cut_at_once; auto. }
  destruct (Nat.leb_spec k 0) as [Hlr|Hlr]; [lia|]. cbn [orb] in S2.
  destruct k as [|j]; [lia|]. destruct (nth_error l j) as [x|] eqn:Ex; [|apply nth_error_None in Ex; lia].
  rewrite (firstn_S_nth _ _ _ _ Ex) in *.
  assert (Hj : length (firstn j l) = j) by (rewrite firstn_length; lia).
  assert (Hroot2 : root (ending (pm (length l) (firstn j l ++ [x]) m (length [x])) fo2) = root (ending (Node (firstn j l ++ [x]) []) fo2)).
  { destruct fo2; simpl; auto. apply pm_root; rewrite app_length; simpl; lia. }
  rewrite <- Hroot2. pose proof (scan_reach _ _ _ _ _ S2 (pm (length l) (firstn j l ++ [x]) m (length [x])) eq_refl) as Hr. apply reach_root_in in Hr.
  eapply Permutation_in in Hr; [|apply pm_values; unfold size, INT64_MAX; rewrite ?app_length, ?Hj; simpl; lia].
  apply in_map_iff in Hr. destruct Hr as [s [Er Hs']]. rewrite <- Er. apply filter_In in Hs'. destruct Hs' as [Hs' _].
  eapply cut_after with (p := firstn j l) (q := skipn (S j) l); auto.
  - rewrite <- (firstn_skipn (S j) l) at 1. rewrite (firstn_S_nth _ _ _ _ Ex), <- app_assoc. reflexivity.
  - lia.
  - intros i Hi. apply G4. lia.
Qed.

Lemma cut_off_map : forall X Y (g : X -> Y) (fails : list Y -> Prop) m l e, cut_off (fun a => fails (map g a)) m l e -> cut_off fails m (map g l) (map g e).
Proof.
  intros X Y g fails m l e [H1 H2|p x q s -> H2 H3 H4 H5].
  - rewrite <- firstn_map. apply cut_at_once; rewrite ?map_length, ?firstn_map; auto.
  - rewrite !map_app. cbn [map]. eapply cut_after with (p := map g p) (q := map g q); rewrite ?map_length; auto.
    + intros j Hj. specialize (H3 j Hj). rewrite <- firstn_map, map_app in H3. auto.
    + rewrite map_app in H4. auto.
    + rewrite sublists_map. apply in_map. auto.
Qed.

Lemma vec_cut : forall A (fails : list A -> Prop) (vec : list (tree A)) m t tried found,
  (size vec <= INT64_MAX)%Z -> m <= length vec -> shrinkListLike vec (Z.of_nat m) true = Ok t -> scan fails (shrinks t) tried found ->
  fails (map root vec) -> prefixes_stay_failing fails m (map root vec) ->
  exists us rs, cut_off (fun l => fails (map root l)) m vec us /\ fails (map root us) /\ Forall2 (fun e e' => reach e e') us rs /\ root (ending t found) = map root rs.
Proof.
  intros A fails vec m t tried found Hs Hm Ht H Hf Hpre. rewrite listlike_ok in Ht by auto. inversion Ht; subst t. clear Ht.
  rewrite shrinks_map in H. apply scan_map in H. destruct H as [tr [fo [S1 [-> ->]]]]. rewrite ending_map, root_map.
  unfold ListMainProof.etree in *. apply scan_andThen in S1. destruct S1 as [tr1 [fo1 [tr2 [fo2 [S1 [S2 [S3 S4]]]]]]].
  pose proof (mtree_cut _ _ _ _ _ _ Hs Hm S1 Hf) as M1.
  set (u := ending (mtree vec m) fo1) in *. rewrite S4. exists (root u), (root (ending u fo2)). split.
  { apply M1. intros j k Hj Hjk Hk Hx. cbv beta in *. rewrite <- firstn_map in *. apply (Hpre j k); rewrite ?map_length; auto. }
  split; [apply (scan_fails _ _ _ _ _ S1 (mtree vec m)); rewrite mtree_root; auto|]. split; auto.
  assert (Hself : forall l : list (tree A), Forall2 (fun e e' => reach e e') l l) by (induction l; constructor; auto; apply reach_refl).
  destruct fo2 as [w|]; simpl; auto. destruct (shrinks u) as [|c cs] eqn:Eu; [|inversion S2].
  pose proof (scan_reach _ _ _ _ _ S2 (Node (root u) (pb (root u))) eq_refl) as Hr. simpl in Hr.
  inversion Hr as [|t0 c s Hc Hr']; subst; simpl; auto. simpl in Hc.
  destruct (pb_nodes _ _ _ _ Hc Hr') as [_ [_ [_ H3]]]. auto.
Qed.

(** * Actions *)

Lemma arg_eall : forall E A V (inj : A -> V) (g : xgen E A) r t r', arg_gen inj g r = Ok (inl t, r') -> eall (fun v => exists a, v = inj a) t.
Proof.
  intros E A V inj g r t r' H s Hs. unfold arg_gen in H. apply gbind_ok in H. destruct H as [x [r1 [H1 H2]]]. unfold gret in H2. inversion H2; subst.
  destruct x as [t0|e]; [|discriminate]. inversion H0; subst. destruct (emap_reach _ _ _ _ _ _ Hs _ eq_refl) as [u [_ ->]].
  exists (eroot u). rewrite emap_eq. reflexivity.
Qed.
Lemma pure_arg_eall : forall E A V (inj : A -> V) (g : gen E A) (Q : A -> Prop), offers_only Q g ->
  forall r t r', arg_gen inj (pure_gen g) r = Ok (inl t, r') -> eall (fun v => exists a, v = inj a /\ Q a) t.
Proof.
  intros E A V inj g Q HQ r t r' H s Hs. destruct (arg_pure_carries _ _ _ _ _ _ _ _ H) as [u [H1 ->]].
  destruct (elift_reach _ _ _ _ Hs _ eq_refl) as [v [H2 ->]]. rewrite elift_root. apply reach_map_inv in H2. destruct H2 as [x [H2 ->]].
  rewrite root_map. exists (root x). split; auto. apply (HQ _ _ _ H1 _ H2).
Qed.
Lemma vector_offers : forall E A (g : gen E A) (Q : A -> Prop) mn mx, (0 <= mn <= mx)%Z -> (mx <= Base.UINT32_MAX)%Z -> offers_only Q g ->
  offers_only (Forall Q) (arbi_vector g {| minSize := mn; maxSize := mx |}).
Proof.
  intros E A g Q mn mx Hmn Hmx HQ r t r' H. destruct (C22_vector E A g mn mx r) as [k [r1 [_ [Hk Hiff]]]]; try lia. apply Hiff in H.
  destruct H as [vec [D1 [D2 [D3 _]]]]. assert (Hs : (size vec <= INT64_MAX)%Z) by (rewrite D2; apply u32_int64; lia).
  assert (Hm : (Z.to_nat mn <= length vec)%nat) by (unfold size in D2; lia). rewrite <- (Z2Nat.id mn) in D3 by lia.
  destruct (PropList.C13_list_sound A vec (Z.to_nat mn) true Hs Hm) as [t' [T1 [_ T2]]]. assert (t' = t) by congruence. subst t'.
  intros s Hr. destruct (T2 s Hr) as [_ [sub [S1 S2]]]. apply draws_each in D1. rewrite Forall_forall in D1.
  assert (Hsub : forall e, In e sub -> In e vec) by (intros e; eapply sublists_In; eauto). clear -S2 Hsub D1 HQ.
  induction S2 as [|e x sub v Hx S2 IH]; constructor; [|apply IH; intros; apply Hsub; right; auto].
  destruct (D1 e) as [q [q' Hq]]; [apply Hsub; left; auto|]. apply reach_values in Hx. destruct Hx as [n [Hn <-]]. apply (HQ _ _ _ Hq _ Hn).
Qed.

Lemma scan_iff : forall A (f f' : A -> Prop) cs tried found, (forall a, f a <-> f' a) -> scan f cs tried found -> scan f' cs tried found.
Proof. intros A f f' cs tried found Hff H. induction H; [constructor|apply scan_pass|apply scan_fail]; auto; rewrite <- Hff; auto. Qed.

(* the property function as a behaviour *)
Definition abeh {O A W} (body : list (O + list A) -> W -> list op * ures * W) (w : W) (args : list (O + list A)) : list op * ures := fst (body args w).

Lemma two_order : forall ord, order 2 ord -> ord = [0; 1] \/ ord = [1; 0].
Proof.
  intros ord H. unfold order in H. cbn [seq] in H. apply Permutation_sym, Permutation_length_2_inv in H. auto.
Qed.

Lemma actions_scan : forall E O X W fuel ev (P : property E (O + list X) W) body ig (g : gen E X) (A : X -> Prop) mn mx w n why rep s',
  func P = body -> gens P = [arg_gen inl ig; arg_gen inr (pure_gen (arbi_vector g {| minSize := mn; maxSize := mx |}))] -> onStartup P = None -> onCleanup P = None ->
  (0 <= mn <= mx)%Z -> (mx <= Base.UINT32_MAX)%Z ->
  offers_only A g -> (forall r e r', ig r <> Ok (inr e, r')) ->
  (forall o l w0, Forall A l -> body [inl o; inr l] w0 = (fst (body [inl o; inr l] w), w0)) ->
  (forall o l, Forall A l -> failed_expectations (fst (fst (body [inl o; inr l] w))) <> [] ->
     snd (fst (body [inl o; inr l] w)) <> UThrow EDiscard /\ snd (fst (body [inl o; inr l] w)) <> UThrow ESuccess) ->
  ord_regen ev = ord_call ev -> order 2 (ord_each ev) ->
  runForAll fuel ev P w = Ok (VFalsified n why rep, s') ->
  exists o0 o1 vec q q' us rs, draws g q vec q' /\ (mn <= size vec <= mx)%Z /\ with_args rep = [inl o0; inr (map root vec)] /\ simplest_args rep = [inl o1; inr (map root rs)] /\
    In us (sublists vec) /\ (mn <= size us)%Z /\ Forall2 (fun e e' => reach e e') us rs /\ bad (abeh body w) [inl o1; inr (map root rs)] /\
    let fails l := bad (abeh body w) [inl (meanwhile (Nat.eqb (hd 0 (ord_each ev)) 0) o1 o0); inr l] in
    fails (map root vec) /\ fails (map root rs) /\
    (prefixes_stay_failing fails (Z.to_nat mn) (map root vec) -> exists us' rs', cut_off (fun l => fails (map root l)) (Z.to_nat mn) vec us' /\ fails (map root us') /\ Forall2 (fun e e' => reach e e') us' rs' /\ map root rs' = map root rs) /\
    (stays_failing fails (Z.to_nat mn) (map root vec) -> fails (map root us) /\ minimal_list fails (Z.to_nat mn) (map root us)).
Proof.
  intros E O X W fuel ev P body ig g A mn mx w n why rep s' Hfu Hge H1 H2 Hmn Hmx HA Hig Hind Hhid Hor Hoe H.
  set (qs := [(fun v : O + list X => exists o, v = inl o); (fun v => exists l, v = inr l /\ Forall A l)]).
  assert (Hqs : forall args, Forall2 (fun (q : O + list X -> Prop) a => q a) qs args -> exists o l, args = [inl o; inr l] /\ Forall A l).
  { intros args Ha. unfold qs in Ha. inversion Ha as [|? ? ? ? Hx Hb]. inversion Hb as [|? ? ? ? Hy Hc]. inversion Hc. destruct Hx as [o2 ->]. destruct Hy as [l2 [-> HF]]. exists o2, l2. auto. }
  assert (HP : pure_on (Forall2 (fun q a => q a) qs) P (abeh body w)).
  { split; [|auto]. intros args w0 Ha. destruct (Hqs _ Ha) as [o [l [-> HF]]]. rewrite Hfu, (Hind o l w0 HF). unfold abeh. rewrite <- surjective_pairing. reflexivity. }
  assert (Hnl : no_leak_on (Forall2 (fun q a => q a) qs) (abeh body w)).
  { intros args Ha Hx. destruct (Hqs _ Ha) as [o [l [-> HF]]]. apply Hhid; auto. }
  assert (Hgen : Forall2 (fun q (g : xgen E (O + list X)) => forall r t r', g r = Ok (inl t, r') -> eall q t) qs (gens P)).
  { rewrite Hge. constructor; [intros; eapply arg_eall; eauto|]. constructor; [|constructor]. intros. eapply pure_arg_eall; [apply vector_offers; eauto|eauto]. }
  assert (Hqu : quiet (gens P)).
  { rewrite Hge. constructor; [apply arg_gen_quiet; auto|]. constructor; [apply arg_gen_quiet; apply pure_gen_quiet|constructor]. }
  assert (Hoe' : order (length (gens P)) (ord_each ev)) by (rewrite Hge; auto).
  assert (Ho12 : exists o1 o2, ord_each ev = o1 ++ 1 :: o2 /\ existsb (Nat.eqb 0) o1 = Nat.eqb (hd 0 (ord_each ev)) 0).
  { destruct (two_order _ Hoe) as [->| ->]; [exists [0], []; auto|exists [], [0]; auto]. }
  destruct Ho12 as [o1 [o2 [Ho Hb]]].
  destruct (falsified_scan_on _ _ _ _ _ _ _ _ _ _ _ _ _ (list X) inr _ _ o1 1 o2 HP Hnl Hgen Hqu Hor Hoe' ltac:(rewrite Hge; reflexivity) (arg_pure_carries _ _ _ _ _) Ho H)
    as [q [q' [t [tried [found [T1 [T2 [T3 [_ [_ [T4 [T5 [T6 [T7 T8]]]]]]]]]]]]]].
  destruct (Hqs _ T4) as [x0 [y0 [E0 _]]]. destruct (Hqs _ T5) as [x1 [y1 [E1 _]]]. clear T4 T5. rewrite E0, E1 in *. cbn [nth_error] in T2, T3.
  inversion T2; subst y0. inversion T3; subst y1. clear T2 T3. rename T6 into T5, T7 into T6, T8 into T7.
  destruct (C22_vector E X g mn mx q) as [k [r1 [_ [Hk Hiff]]]]; try lia. apply Hiff in T1. destruct T1 as [vec [D1 [D2 [D3 [D4 _]]]]].
  assert (Hs : (size vec <= INT64_MAX)%Z) by (rewrite D2; apply u32_int64; lia).
  assert (Hm : (Z.to_nat mn <= length vec)%nat) by (unfold size in D2; lia).
  rewrite <- (Z2Nat.id mn) in D3 by lia.
  set (fails l := bad (abeh body w) [inl (meanwhile (Nat.eqb (hd 0 (ord_each ev)) 0) x1 x0); inr l]).
  assert (Hfl : forall l, bad (abeh body w) (set_nth 1 (inr l) (partly o1 [inl x1; inr (root (ending t found))] [inl x0; inr (root t)])) <-> fails l).
  { intros l. unfold fails, partly, meanwhile. cbn [length seq combine map fst snd]. rewrite <- Hb. cbn [set_nth]. destruct (existsb (Nat.eqb 0) o1); reflexivity. }
  assert (S1 : scan fails (shrinks t) tried found) by (eapply scan_iff; [|exact T7]; exact Hfl).
  destruct (vec_scan _ _ _ _ _ _ _ Hs Hm D3 S1) as [us [rs [V1 [V2 [V3 [V4 V5]]]]]].
  exists x0, x1, vec, r1, q', us, rs. split; auto. split; [lia|]. rewrite D4, V4 in *. split; auto. split; auto. split; auto. split; [unfold size; lia|]. split; auto. split; auto.
  assert (F0 : fails (map root vec)) by (apply Hfl; auto).
  split; auto. split; [rewrite <- V4; apply (scan_fails _ _ _ _ _ S1); rewrite D4; auto|]. split; [|auto].
  intros Hpre. destruct (vec_cut _ _ _ _ _ _ _ Hs Hm D3 S1 F0 Hpre) as [us' [rs' [U1 [U2 [U3 U4]]]]]. rewrite V4 in U4.
  exists us', rs'. auto.
Qed.

Lemma decided_prefixes : forall X (fails : list X -> Prop) m l, decided_early fails -> prefixes_stay_failing fails m l.
Proof.
  intros X fails m l Hd j k _ Hjk _ H. replace (firstn k l) with (firstn j l ++ skipn j (firstn k l)); [apply Hd; auto|].
  transitivity (firstn j (firstn k l) ++ skipn j (firstn k l)); [rewrite firstn_firstn, Nat.min_l by lia; reflexivity|apply firstn_skipn].
Qed.
Lemma cut_off_In : forall X (fails : list X -> Prop) m l e x, cut_off fails m l e -> In x e -> In x l.
Proof.
  intros X fails m l e x [H1 H2|p y q s -> H1 H2 H3 H4] Hx.
  - rewrite <- (firstn_skipn m l). apply in_or_app. auto.
  - apply in_or_app. apply in_app_iff in Hx. destruct Hx as [Hx|[<-|[]]]; [left; eapply sublists_In; eauto|right; left; auto].
Qed.
Lemma cut_off_length : forall X (fails : list X -> Prop) l e k, cut_off fails 0 l e -> k <= length l -> fails (firstn k l) -> length e <= k.
Proof.
  intros X fails l e k [H1 H2|p y q s -> H1 H2 H3 H4] Hk Hf; [simpl; lia|].
  pose proof (sublists_len _ _ _ H4). rewrite app_length. simpl. destruct (Nat.le_gt_cases k (length p)); [|lia]. exfalso. apply (H2 k); auto. lia.
Qed.
Lemma leaves_same : forall A (us rs : list (tree A)), (forall e, In e us -> shrinks e = []) -> Forall2 (fun e e' => reach e e') us rs -> rs = us.
Proof.
  intros A us rs Hl H. induction H as [|e e' us rs He H IH]; auto. f_equal; [|apply IH; intros; apply Hl; right; auto].
  pose proof (Hl e (or_introl eq_refl)) as Hs. inversion He; subst; auto. rewrite Hs in *. contradiction.
Qed.
Lemma cut_off_iff : forall X (f f' : list X -> Prop) m l e, (forall a, f a <-> f' a) -> cut_off f m l e -> cut_off f' m l e.
Proof.
  intros X f f' m l e Hff [H1 H2|p y q s -> H1 H2 H3 H4].
  - apply cut_at_once; auto. apply Hff. auto.
  - eapply cut_after; eauto; [|apply Hff; auto]. intros j Hj Hx. apply Hff in Hx. eapply H2; eauto.
Qed.

Lemma run_fails_bad : forall O M W (factory : O -> eff W (O * M)) post w o l,
  run_fails factory post w o l <-> bad (abeh (on_args (statefulBody factory post)) w) [inl o; inr l].
Proof.
  intros O M W factory post w o l. unfold run_fails, bad, abeh. destruct (on_args (statefulBody factory post) [inl o; inr l] w) as [[ops u] w'] eqn:Eb. cbn [fst snd]. split.
  - intros [ops0 [u0 [w0 [H1 H2]]]]. apply body_ends in H1. rewrite Eb in H1. inversion H1; subst. auto.
  - intros H. exists ops, u, w'. split; auto. apply body_ends. auto.
Qed.
Lemma failed_app : forall a b, failed_expectations a <> [] -> failed_expectations (a ++ b) <> [].
Proof. intros a b H. unfold failed_expectations in *. rewrite ?filter_app, ?flat_map_app. intros E. apply app_eq_nil in E. tauto. Qed.

Lemma ran_app : forall O M W (a : list (action O M W)) st ops st', ran a st ops st' -> forall b ops2 st2, ran b st' ops2 st2 -> ran (a ++ b) st (ops ++ ops2) st2.
Proof. induction 1 as [|x l o m w ops1 o1 m1 w1 ops2 st Hx H IH]; intros b p st2 Hb; auto. simpl. rewrite <- app_assoc. eapply ran_cons; eauto. Qed.
Lemma run_decided : forall O M W (factory : O -> eff W (O * M)) w o, decided_early (run_fails factory None w o).
Proof.
  intros O M W factory w o a b [ops [u [w' [He Hb]]]]. inversion He; subst.
  - exists ops, (UThrow e), w'. split; [apply e_factory; auto|left; discriminate].
  - exists (ops1 ++ ops2 ++ ops3), (UThrow e), w'. split; [|left; discriminate]. eapply e_action with (l1 := l1) (l2 := l2 ++ b); eauto. rewrite <- app_assoc. reflexivity.
  - discriminate.
  - destruct H1 as [-> ->]. destruct Hb as [Hb|Hb]; [congruence|]. rewrite app_nil_r in Hb.
    destruct (applyAll b o2 m2 w2) as [[opsb [[ob mb]|e]] wb] eqn:Eb.
    + apply applyAll_ok in Eb. exists (ops1 ++ (ops2 ++ opsb) ++ []), (URet true), wb. split; [|right; rewrite app_nil_r, app_assoc; apply failed_app; auto].
      eapply e_all; eauto. eapply ran_app; eauto.
    + apply applyAll_err in Eb. destruct Eb as (l1 & x & l2 & p1 & o3 & m3 & w3 & p2 & -> & R & F & ->).
      exists (ops1 ++ (ops2 ++ p1) ++ p2), (UThrow e), wb. split; [|left; discriminate].
      eapply e_action with (l1 := a ++ l1) (a := x) (l2 := l2); eauto. rewrite <- app_assoc. reflexivity. eapply ran_app; eauto.
Qed.

Lemma go_actions : forall E O M W A fuel ev dr dd gs stale (s : sprop E O M W) w n why rep s' after,
  offers_only A (sp_actionGen s) -> independent A (sp_modelFactory s) (sp_postCheck s) -> no_hidden_failure A (sp_modelFactory s) (sp_postCheck s) ->
  (forall r e r', sp_initialGen s r <> Ok (inr e, r')) -> sp_onStartup s = None -> sp_onCleanup s = None ->
  ord_regen ev = ord_call ev -> order 2 (ord_each ev) ->
  sgo fuel ev dr dd gs stale s w = (Ok (VFalsified n why rep, s'), after) ->
  exists o0 o1 vec q q' us rs, draws (sp_actionGen s) q vec q' /\ length vec <= 200 /\
    with_args rep = [inl o0; inr (map root vec)] /\ simplest_args rep = [inl o1; inr (map root rs)] /\
    In us (sublists vec) /\ Forall2 (fun e e' => reach e e') us rs /\ run_fails (sp_modelFactory s) (sp_postCheck s) w o1 (map root rs) /\
    let fails := run_fails (sp_modelFactory s) (sp_postCheck s) w (meanwhile (Nat.eqb (hd 0 (ord_each ev)) 0) o1 o0) in
    fails (map root vec) /\ fails (map root rs) /\
    (prefixes_stay_failing fails 0 (map root vec) -> exists us' rs', cut_off (fun l => fails (map root l)) 0 vec us' /\ fails (map root us') /\ Forall2 (fun e e' => reach e e') us' rs' /\ map root rs' = map root rs) /\
    (stays_failing fails 0 (map root vec) -> fails (map root us) /\ minimal_list fails 0 (map root us)).
Proof.
  intros E O M W A fuel ev dr dd gs stale s w n why rep s' after HA Hi Hh Hq H1 H2 Ho Hoe H. unfold sgo in H.
  assert (Hr : runForAll fuel ev (sbuild dr dd gs s) w = Ok (VFalsified n why rep, s')) by congruence.
  destruct (sbuild_parts E O M W dr dd gs s) as [P1 [P2 [_ [_ [_ [P6 P7]]]]]]. rewrite H2, H1 in P1.
  destruct (actions_scan E O _ W fuel ev (sbuild dr dd gs s) _ _ _ A 0 200 w n why rep s' P6 P7 P1 P2 ltac:(lia) ltac:(vm_compute; discriminate) HA Hq) as
    [o0 [o1 [vec [q [q' [us [rs [G1 [G2 [G3 [G4 [G5 [G6 [G7 [G8 G9]]]]]]]]]]]]]]]; auto.
  - intros o l w0 HF. destruct (on_args (statefulBody (sp_modelFactory s) (sp_postCheck s)) [inl o; inr l] w) as [[ops u] w1] eqn:B. apply body_ends in B.
    destruct (Hi _ _ _ _ _ _ HF B) as [_ Hx]. specialize (Hx w0). apply body_ends in Hx. exact Hx.
  - intros o l HF Hx. destruct (on_args (statefulBody (sp_modelFactory s) (sp_postCheck s)) [inl o; inr l] w) as [[ops u] w1] eqn:B. apply body_ends in B. cbn [fst snd] in *.
    split; intros ->; apply Hx; eapply Hh; eauto.
  - exists o0, o1, vec, q, q', us, rs. split; auto. split; [unfold size in G2; lia|]. split; auto. split; auto. split; auto. split; auto. split; [apply run_fails_bad; auto|].
    cbv zeta in *. destruct G9 as [F1 [F2 [F3 F4]]]. split; [apply run_fails_bad; auto|]. split; [apply run_fails_bad; auto|].
    change (Z.to_nat 0) with 0 in *. split.
    + intros Hpre. destruct F3 as [us' [rs' [U1 [U2 [U3 U4]]]]].
      * intros j k A1 A2 A3 A4. apply run_fails_bad. apply run_fails_bad in A4. eapply Hpre; eauto.
      * exists us', rs'. split; [eapply cut_off_iff; [|exact U1]; intros; cbv beta; symmetry; apply run_fails_bad|]. split; [apply run_fails_bad; auto|]. auto.
    + intros Hst. destruct F4 as [M1 M2].
      * intros a b A1 A2 A3 A4. apply run_fails_bad. apply run_fails_bad in A4. eapply Hst; eauto.
      * split; [apply run_fails_bad; auto|]. destruct M2 as [M2|M2]; [left; auto|right]. intros a x b A1 A2. apply run_fails_bad in A2. eapply M2; eauto.
Qed.

(** * The class-based interface *)

Lemma cran_app : forall O M W n (a : list (caction O M W)) st ops done st', cran n a st ops done st' ->
  forall b ops2 done2 st2, cran (n + length a) b st' ops2 done2 st2 -> cran n (a ++ b) st (ops ++ ops2) (done ++ done2) st2.
Proof.
  induction 1 as [n st|n x l o m w ops1 w1 ops2 done st Hp H IH|n x l o m w ops1 w1 ops2 o2 m2 w2 ops3 done st Hp Hr H IH]; intros b p d st2 Hc; cbn [app length] in *.
  - rewrite Nat.add_0_r in Hc. auto.
  - rewrite <- app_assoc. eapply cran_skip; eauto. apply IH; auto. replace (S n + length l) with (n + S (length l)) by lia. auto.
  - rewrite <- !app_assoc. eapply cran_run; eauto. apply IH; auto. replace (S n + length l) with (n + S (length l)) by lia. auto.
Qed.
Lemma crun_fails_bad : forall O M W (factory : O -> eff W (O * M)) w o l,
  crun_fails factory w o l <-> bad (abeh (on_args (classBody2 factory)) w) [inl o; inr l].
Proof.
  intros O M W factory w o l. unfold crun_fails, bad, abeh. destruct (on_args (classBody2 factory) [inl o; inr l] w) as [[ops u] w'] eqn:Eb. cbn [fst snd]. split.
  - intros [ops0 [u0 [w0 [H1 H2]]]]. apply class_ends in H1. rewrite Eb in H1. inversion H1; subst. auto.
  - intros H. exists ops, u, w'. split; auto. apply class_ends. auto.
Qed.
Lemma crun_decided : forall O M W (factory : O -> eff W (O * M)) w o, decided_early (crun_fails factory w o).
Proof.
  intros O M W factory w o a b [ops [u [w' [He Hb]]]]. inversion He; subst.
  - exists ops, (UThrow e), w'. split; [apply ce_factory; auto|left; discriminate].
  - exists (ops1 ++ ops2 ++ ops3), (UThrow e), w'. split; [|left; discriminate]. eapply ce_action with (l1 := l1) (l2 := l2 ++ b); eauto. rewrite <- app_assoc. reflexivity.
  - destruct Hb as [Hb|Hb]; [congruence|].
    destruct (classLoop2 b o2 m2 w') as [[opsb [[ob mb]|e]] wb] eqn:Eb.
    + apply (classLoop2_ok _ _ _ _ (length a)) in Eb. destruct Eb as [d Eb]. exists (ops1 ++ (ops2 ++ opsb)), (URet true), wb. split; [|right; rewrite app_assoc; apply failed_app; auto].
      eapply ce_all; eauto. eapply cran_app; eauto.
    + apply classLoop2_err in Eb. destruct Eb as (l1 & x & l2 & p1 & d & o3 & m3 & w3 & p2 & -> & R & F & ->).
      destruct (cran_shift _ _ _ _ _ _ _ _ _ R (0 + length a)) as [d' R'].
      exists (ops1 ++ (ops2 ++ p1) ++ p2), (UThrow e), wb. split; [|left; discriminate].
      eapply ce_action with (l1 := a ++ l1) (a := x) (l2 := l2); eauto. rewrite <- app_assoc. reflexivity. eapply cran_app; eauto.
Qed.
Lemma crun1_fails_bad : forall O M W w o (l : list (caction O M W)),
  crun_fails (fun o => eret (o, tt)) w o (map without_model l) <-> bad (abeh (on_args classBody1) w) [inl o; inr l].
Proof.
  intros O M W w o l. unfold crun_fails, bad, abeh. destruct (on_args classBody1 [inl o; inr l] w) as [[ops u] w'] eqn:Eb. cbn [fst snd]. split.
  - intros [ops0 [u0 [w0 [H1 H2]]]]. apply class1_ends in H1. rewrite Eb in H1. inversion H1; subst. auto.
  - intros H. exists ops, u, w'. split; auto. apply class1_ends. auto.
Qed.
