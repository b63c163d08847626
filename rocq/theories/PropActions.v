(** C81: which actions a falsified stateful test reports. *)
From Coq Require Import String List ZArith Lia Bool Permutation.
From Verif Require Import Base TreeModel TreeSpec TreeProof RandomModel TupleModel TupleProof IntegralModel IntegralSpec IntegralProof ListModel ListSpec ListProof ListMainProof ContainerModel ContainerSpec GenModel
  EffModel EffSpec ContextModel ContextSpec RunnerModel RunnerSpec SearchSpec ListSearchSpec ListSearchProof ContainerProof PropContainer PropRun PropListSearch
  StatefulModel StatefulSpec StatefulProof PropStateful ActionsSpec ActionsProof.
Import ListNotations.
Local Open Scope string_scope.
Local Open Scope list_scope.

(** * Set-ups used by the examples *)

(** The stack without a check; no action fails but pop. *)
Definition popProp : sprop replay (list Z) nat unit := new_sprop aStack sizeOf anAction.
Definition reported {O M W S A} (x : res (verdict (O + list (action O M W)) * S) * A) : option (list (list string)) :=
  match fst x with Ok (VFalsified n why rep, _) => Some (flat_map (fun a => match a with inr l => [map a_name l] | _ => [] end) (with_args rep ++ simplest_args rep)) | _ => None end.
Lemma plain_offered : offers_only plain anAction.
Proof.
  intros r t r' H s Hs. unfold anAction in H. apply ContainerProof.gbind_ok in H. destruct H as (z & r1 & _ & H). unfold gret in H. inversion H; subst.
  inversion Hs; subst; [|contradiction]. cbn [root]. unfold plain. destruct (z =? 0)%Z; auto. destruct (z =? 1)%Z; auto.
Qed.
Lemma plain_independent0 : independent plain sizeOf None.
Proof. intros o l [] ops u [] _ H; split; auto. intros []; auto. Qed.
Lemma plain_no_hidden0 : no_hidden_failure plain sizeOf None.
Proof.
  intros o l w ops e w' Hp H He. inversion H; subst.
  - discriminate.
  - match goal with A : sizeOf _ _ = _ |- _ => cbn in A; inversion A; subst end. apply Forall_app in Hp. destruct Hp as [Hp Ha].
    match goal with R : ran _ _ _ _ |- _ => apply plain_ran in R; [subst|assumption] end. inversion Ha as [|? ? Hpa _]; subst.
    match goal with A : a_func _ _ _ _ = _ |- _ => rename A into Hf end. cbn.
    destruct Hpa as [->|[->| ->]]; cbn in Hf; try match type of Hf with context [match ?x with _ => _ end] => destruct x end; inversion Hf; auto.
  - discriminate.
Qed.
(** Three actions: b is noted in the object; c needs it, and is noted too; d may not come after c. *)
Definition bAct : action (list nat) unit unit := {| a_name := "b"; a_func := fun o m => eret (o ++ [1], m) |}.
Definition cAct : action (list nat) unit unit := {| a_name := "c"; a_func := fun o m => if existsb (Nat.eqb 1) o then eret (o ++ [2], m) else ethrow EAssert |}.
Definition dAct : action (list nat) unit unit := {| a_name := "d"; a_func := fun o m => if existsb (Nat.eqb 2) o then ethrow EAssert else eret (o, m) |}.
Definition bcd : gen replay (action (list nat) unit unit) :=
  gbind (draw 0 2) (fun z => gret (Node (if (z =? 0)%Z then bAct else if (z =? 1)%Z then cAct else dAct) [])).
Definition nothingYet : xgen replay (list nat) := gret (inl (elift (Node [] []))).
Definition noModel (o : list nat) : eff unit (list nat * unit) := eret (o, tt).
Definition bcdProp : sprop replay (list nat) unit unit := new_sprop nothingYet noModel bcd.
Definition stale1 : xgen replay (list nat) * (list nat -> eff unit (list nat * unit)) := (gret (inr EOther), fun _ => ethrow EOther).
(** Actions that record nothing and throw nothing but assertion failures. *)
Definition silent (a : action (list nat) unit unit) : Prop := forall o m w ops r w', a_func a o m w = (ops, r, w') -> ops = [] /\ forall e, r = inr e -> e = EAssert.
Lemma silent_ran : forall l st ops st', Forall silent l -> ran l st ops st' -> ops = [].
Proof.
  intros l st ops st' Hl R. induction R as [|a l o m w ops1 o1 m1 w1 ops2 st Ha R IH]; auto. inversion Hl; subst.
  match goal with A : silent a |- _ => destruct (A _ _ _ _ _ _ Ha) as [-> _] end. apply IH. auto.
Qed.
Lemma silent_hidden : forall post, (forall f o m w ops r w', post = Some f -> f o m w = (ops, r, w') -> ops = [] /\ forall e, r = inr e -> e = EAssert) ->
  no_hidden_failure silent noModel post.
Proof.
  intros post Hpost o l w ops e w' Hl H He. inversion H; subst.
  - discriminate.
  - match goal with A : noModel _ _ = _ |- _ => cbn in A; inversion A; subst end. apply Forall_app in Hl. destruct Hl as [Hl Ha].
    match goal with R : ran _ _ _ _ |- _ => apply silent_ran in R; [subst|assumption] end. inversion Ha as [|? ? Hsa _]; subst.
    match goal with A : a_func _ _ _ _ = _ |- _ => destruct (Hsa _ _ _ _ _ _ A) as [-> _] end. reflexivity.
  - match goal with A : noModel _ _ = _ |- _ => cbn in A; inversion A; subst end.
    match goal with R : ran _ _ _ _ |- _ => apply silent_ran in R; [subst|assumption] end.
    match goal with A : ?f _ _ _ = (_, inr _, _) |- _ => destruct (Hpost _ _ _ _ _ _ _ eq_refl A) as [-> _] end. reflexivity.
Qed.
Lemma unit_independent : forall O M A (factory : O -> eff unit (O * M)) post, independent A factory post.
Proof. intros O M A factory post o l [] ops u [] _ H; split; auto. intros []; auto. Qed.
Lemma bcd_offered : offers_only silent bcd.
Proof.
  intros r t r' H s Hs. unfold bcd in H. apply ContainerProof.gbind_ok in H. destruct H as (z & r1 & _ & H). unfold gret in H. inversion H; subst.
  inversion Hs; subst; [|contradiction]. cbn [root].
  destruct (z =? 0)%Z; [|destruct (z =? 1)%Z]; intros o m w ops x w' Hx; cbn in Hx; try match type of Hx with context [if ?c then _ else _] => destruct c end;
    inversion Hx; subst; split; auto; intros e He; inversion He; auto.
Qed.
Lemma nothingYet_quiet : forall r e r', nothingYet r <> Ok (inr e, r').
Proof. discriminate. Qed.
(** Numbers noted one after the other; the check fails with four of them, and with just a 7. *)
Definition note (n : nat) : action (list nat) unit unit := {| a_name := "note"; a_func := fun o m => eret (o ++ [n], m) |}.
Definition notes : gen replay (action (list nat) unit unit) := gbind (draw 0 9) (fun z => gret (Node (note (Z.to_nat z)) [])).
Definition check4 (o : list nat) (m : unit) : eff unit unit := match o with [7] | [_; _; _; _] => ethrow EAssert | _ => eret tt end.
Definition noteProp : sprop replay (list nat) unit unit := sconfigure (new_sprop nothingYet noModel notes) (SPostCheck check4).
Lemma notes_offered : offers_only silent notes.
Proof.
  intros r t r' H s Hs. unfold notes in H. apply ContainerProof.gbind_ok in H. destruct H as (z & r1 & _ & H). unfold gret in H. inversion H; subst.
  inversion Hs; subst; [|contradiction]. cbn [root]. intros o m w ops x w' Hx; cbn in Hx; inversion Hx; subst; split; auto; intros e He; inversion He.
Qed.
Lemma check4_silent : forall f o m w ops r w', Some check4 = Some f -> f o m w = (ops, r, w') -> ops = [] /\ forall e, r = inr e -> e = EAssert.
Proof.
  intros f o m w ops r w' E H. inversion E; subst. unfold check4, ethrow, eret in H.
  repeat match type of H with context [match ?x with _ => _ end] => destruct x end; inversion H; subst; split; auto; intros e He; inversion He; auto.
Qed.
Lemma run_fails_intro : forall O M W (factory : O -> eff W (O * M)) post w o l ops e w',
  on_args (statefulBody factory post) [inl o; inr l] w = (ops, UThrow e, w') -> run_fails factory post w o l.
Proof. intros O M W factory post w o l ops e w' H. apply C43_run in H. exists ops, (UThrow e), w'. split; [exact H|left; discriminate]. Qed.

(** * Any vector argument *)

(** If a list that fails keeps failing when elements are appended, then what is reported comes from the drawn list in this way: it is cut off after the first element
    with which it fails, elements before that one may be left out, and elements may be replaced by shrunk ones. *)
Theorem C81_vector : forall E V W fuel ev (P : property E V W) beh w n why rep s' A (inj : list A -> V) (elemGen : gen E A) mn mx o1 N o2,
  pure_property P beh -> quiet (gens P) -> no_leak beh -> ord_regen ev = ord_call ev -> order (length (gens P)) (ord_each ev) ->
  (0 <= mn <= mx)%Z -> (mx <= Base.UINT32_MAX)%Z ->
  nth_error (gens P) N = Some (treeArg inj (arbi_vector elemGen {| minSize := mn; maxSize := mx |})) -> ord_each ev = o1 ++ N :: o2 ->
  let fails x := bad beh (set_nth N (inj x) (partly o1 (simplest_args rep) (with_args rep))) in
  decided_early fails ->
  runForAll fuel ev P w = Ok (VFalsified n why rep, s') ->
  exists vec q q' us rs, draws elemGen q vec q' /\ cut_off (fun l => fails (map root l)) (Z.to_nat mn) vec us /\ fails (map root us) /\
    Forall2 (fun e e' => reach e e') us rs /\ nth_error (with_args rep) N = Some (inj (map root vec)) /\ nth_error (simplest_args rep) N = Some (inj (map root rs)).
Proof.
  intros E V W fuel ev P beh w n why rep s' A inj eg mn mx o1 N o2 HP Hq Hnl Ho Hoe Hmn Hmx HgN Ho1 fails Hd H.
  destruct (falsified_scan _ _ _ _ _ _ _ _ _ _ _ _ _ _ _ _ _ _ HP Hq Hnl Ho Hoe HgN Ho1 H) as [q [q' [t [tried [found [T1 [T2 [T3 [T4 T5]]]]]]]]].
  destruct (C22_vector E A eg mn mx q) as [k [r1 [_ [Hk Hiff]]]]; try lia. apply Hiff in T1. destruct T1 as [vec [D1 [D2 [D3 [D4 _]]]]].
  assert (Hs : (size vec <= INT64_MAX)%Z) by (rewrite D2; apply u32_int64; lia).
  assert (Hm : (Z.to_nat mn <= length vec)%nat) by (unfold size in D2; lia).
  rewrite <- (Z2Nat.id mn) in D3 by lia. rewrite D4 in *.
  destruct (vec_cut _ _ _ _ _ _ _ Hs Hm D3 T5 T4 (decided_prefixes _ _ _ _ Hd)) as [us [rs [U1 [U2 [U3 U4]]]]].
  exists vec, r1, q', us, rs. rewrite <- U4. auto 10.
Qed.

Lemma prefix_sublist : forall X (a b : list X), In a (sublists (a ++ b)).
Proof.
  intros X a b. induction a as [|x a IH]; simpl.
  - apply ListProof.sublists_nil.
  - apply in_or_app. left. apply in_map. auto.
Qed.
Lemma decided67 : decided_early (fun x => bad f67 [x]).
Proof. intros a b H. eapply (stays67 0 (a ++ b) a (a ++ b)); [apply ListProof.sublists_self|apply prefix_sublist|lia|exact H]. Qed.
(** [3;5;8;5;9] is drawn; it fails from the 8 on, and the 3 can be left out. *)
Example C81_vector_ex : match runForAll 5 (inOrder 1 [5; 3; 5; 8; 5; 9]%Z) (prop67 vec67) tt with
    | Ok (VFalsified n why rep, s) => with_args rep = [[3; 5; 8; 5; 9]]%Z /\ simplest_args rep = [[5; 8]]%Z | _ => False end /\
  pure_property (prop67 vec67) f67 /\ quiet (gens (prop67 vec67)) /\ no_leak f67 /\ decided_early (fun x => bad f67 [x]) /\
  cut_off (fun x => bad f67 [x]) 1 [3; 5; 8; 5; 9]%Z [5; 8]%Z.
Proof.
  split; [vm_compute; auto|]. split; [split; auto|]. split; [constructor; [|constructor]; intros r e r' H; unfold treeArg in H; apply ContainerProof.gbind_ok in H; destruct H as (t & r1 & _ & H); discriminate|]. split; [intros [|x [|y a]] H; exfalso; apply H; reflexivity|].
  split; [exact decided67|].
  eapply (cut_after _ _ _ [3; 5]%Z 8%Z [5; 9]%Z [5]%Z); [reflexivity|simpl; lia| |apply bad67; reflexivity|simpl; auto].
  intros j Hj. rewrite bad67. simpl in Hj. assert (Hc : j = 1 \/ j = 2) by lia. destruct Hc as [->| ->]; discriminate.
Qed.

(** * Function-based tests *)

(** Without a check after the last action, a run that fails keeps failing when actions are appended. *)
Theorem C81_decided : forall O M W (factory : O -> eff W (O * M)) w o, decided_early (run_fails factory None w o).
Proof. apply run_decided. Qed.
Example C81_decided_ex : run_fails sizeOf None tt [5]%Z [pop; pop] /\ run_fails sizeOf None tt [5]%Z [pop; pop; push 1; push 2].
Proof.
  assert (H : run_fails sizeOf None tt [5]%Z [pop; pop]) by (exists [], (UThrow EAssert), tt; split; [apply C43_run; reflexivity|left; discriminate]).
  split; [exact H|exact (C81_decided _ _ _ sizeOf tt [5]%Z _ [push 1; push 2] H)].
Qed.

(** A falsified stateful test without such a check, whose actions neither depend on the world nor change it: the reported actions come from the drawn ones in the way
    described above, where a list of actions fails if it fails on the object used while the actions are shrunk (the final one if the object has been shrunk before). *)
Theorem C81_actions : forall E O M W A fuel ev dr dd gs stale (s : sprop E O M W) w n why rep s' after,
  offers_only A (sp_actionGen s) -> independent A (sp_modelFactory s) None -> no_hidden_failure A (sp_modelFactory s) None ->
  (forall r e r', sp_initialGen s r <> Ok (inr e, r')) -> sp_postCheck s = None -> sp_onStartup s = None -> sp_onCleanup s = None ->
  ord_regen ev = ord_call ev -> order 2 (ord_each ev) ->
  sgo fuel ev dr dd gs stale s w = (Ok (VFalsified n why rep, s'), after) ->
  exists o0 o1 vec q q' us rs, draws (sp_actionGen s) q vec q' /\ length vec <= 200 /\
    with_args rep = [inl o0; inr (map root vec)] /\ simplest_args rep = [inl o1; inr (map root rs)] /\
    run_fails (sp_modelFactory s) None w o1 (map root rs) /\
    let fails := run_fails (sp_modelFactory s) None w (meanwhile (Nat.eqb (hd 0 (ord_each ev)) 0) o1 o0) in
    cut_off (fun l => fails (map root l)) 0 vec us /\ fails (map root us) /\ Forall2 (fun e e' => reach e e') us rs.
Proof.
  intros E O M W A fuel ev dr dd gs stale s w n why rep s' after HA Hi Hh Hq Hp H1 H2 Ho Hoe H.
  destruct (go_actions _ _ _ _ _ _ _ _ _ _ _ _ _ _ _ _ _ _ HA ltac:(rewrite Hp; exact Hi) ltac:(rewrite Hp; exact Hh) Hq H1 H2 Ho Hoe H)
    as [o0 [o1 [vec [q [q' [us [rs [G1 [G2 [G3 [G4 [G5 [G6 [G7 [G8 [G9 [G10 _]]]]]]]]]]]]]]]]]. rewrite Hp in *.
  destruct G10 as [us' [rs' [U1 [U2 [U3 U4]]]]]; [apply decided_prefixes; apply C81_decided|].
  exists o0, o1, vec, q, q', us', rs'. rewrite U4. auto 10.
Qed.

(** If in addition generated actions do not shrink: the reported actions are the drawn ones, cut off after the first one with which they fail, with some of the earlier
    ones left out; they fail on the object they are reported with. *)
Theorem C81_actions_same : forall E O M W A fuel ev dr dd gs stale (s : sprop E O M W) w n why rep s' after,
  offers_only A (sp_actionGen s) -> independent A (sp_modelFactory s) None -> no_hidden_failure A (sp_modelFactory s) None ->
  (forall r e r', sp_initialGen s r <> Ok (inr e, r')) -> sp_postCheck s = None -> sp_onStartup s = None -> sp_onCleanup s = None ->
  ord_regen ev = ord_call ev -> order 2 (ord_each ev) -> (forall r t r', sp_actionGen s r = Ok (t, r') -> shrinks t = []) ->
  sgo fuel ev dr dd gs stale s w = (Ok (VFalsified n why rep, s'), after) ->
  exists o0 o1 acts acts', with_args rep = [inl o0; inr acts] /\ simplest_args rep = [inl o1; inr acts'] /\
    cut_off (run_fails (sp_modelFactory s) None w (meanwhile (Nat.eqb (hd 0 (ord_each ev)) 0) o1 o0)) 0 acts acts' /\
    run_fails (sp_modelFactory s) None w o1 acts'.
Proof.
  intros E O M W A fuel ev dr dd gs stale s w n why rep s' after HA Hi Hh Hq Hp H1 H2 Ho Hoe Hno H.
  destruct (C81_actions _ _ _ _ _ _ _ _ _ _ _ _ _ _ _ _ _ _ HA Hi Hh Hq Hp H1 H2 Ho Hoe H)
    as [o0 [o1 [vec [q [q' [us [rs [G1 [G2 [G3 [G4 [G5 [G6 [G7 G8]]]]]]]]]]]]]].
  assert (rs = us).
  { eapply leaves_same; [|exact G8]. intros e He. apply draws_each in G1. rewrite Forall_forall in G1.
    destruct (G1 e) as [a [b Hab]]; [eapply cut_off_In; eauto|]. eapply Hno; eauto. }
  subst rs. exists o0, o1, (map root vec), (map root us). split; auto. split; auto. split; auto. apply cut_off_map. auto.
Qed.

(** So no failing prefix of the drawn actions is shorter than what is reported. *)
Theorem C81_length : forall E O M W A fuel ev dr dd gs stale (s : sprop E O M W) w n why rep s' after,
  offers_only A (sp_actionGen s) -> independent A (sp_modelFactory s) None -> no_hidden_failure A (sp_modelFactory s) None ->
  (forall r e r', sp_initialGen s r <> Ok (inr e, r')) -> sp_postCheck s = None -> sp_onStartup s = None -> sp_onCleanup s = None ->
  ord_regen ev = ord_call ev -> order 2 (ord_each ev) ->
  sgo fuel ev dr dd gs stale s w = (Ok (VFalsified n why rep, s'), after) ->
  exists o0 o1 acts acts', with_args rep = [inl o0; inr acts] /\ simplest_args rep = [inl o1; inr acts'] /\
    forall k, k <= length acts -> run_fails (sp_modelFactory s) None w (meanwhile (Nat.eqb (hd 0 (ord_each ev)) 0) o1 o0) (firstn k acts) -> length acts' <= k.
Proof.
  intros E O M W A fuel ev dr dd gs stale s w n why rep s' after HA Hi Hh Hq Hp H1 H2 Ho Hoe H.
  destruct (C81_actions _ _ _ _ _ _ _ _ _ _ _ _ _ _ _ _ _ _ HA Hi Hh Hq Hp H1 H2 Ho Hoe H)
    as [o0 [o1 [vec [q [q' [us [rs [G1 [G2 [G3 [G4 [G5 [G6 [G7 G8]]]]]]]]]]]]]].
  exists o0, o1, (map root vec), (map root rs). split; auto. split; auto. intros k Hk Hf.
  assert (Hl : length rs = length us) by (clear -G8; induction G8; simpl; auto). rewrite map_length, Hl.
  apply cut_off_map in G6. rewrite <- (map_length root us). eapply cut_off_length; eauto.
Qed.

Example C81_actions_ex : offers_only plain (sp_actionGen popProp) /\ independent plain (sp_modelFactory popProp) None /\ no_hidden_failure plain (sp_modelFactory popProp) None /\
  (forall r e r', sp_initialGen popProp r <> Ok (inr e, r')) /\ (forall r t r', sp_actionGen popProp r = Ok (t, r') -> shrinks t = []) /\
  reported (sgo 5 (inOrder 2 [5; 6; 1; 0; 0; 0; 1; 2]%Z) 2 0 1 stale0 popProp tt) = Some [["push"; "pop"; "pop"; "pop"; "push"; "clear"]; ["pop"; "pop"]] /\
  reported (sgo 5 (inOrder 2 [5; 6; 1; 2; 1; 0; 0; 2]%Z) 2 0 1 stale0 popProp tt) = Some [["push"; "clear"; "push"; "pop"; "pop"; "clear"]; ["clear"; "pop"]].
Proof.
  split; [exact plain_offered|]. split; [exact plain_independent0|]. split; [exact plain_no_hidden0|]. split; [exact aStack_quiet|]. split.
  - intros r t r' H. unfold popProp in H. cbn [sp_actionGen new_sprop] in H. unfold anAction in H. apply ContainerProof.gbind_ok in H. destruct H as (z & r1 & _ & H). unfold gret in H. inversion H; subst. reflexivity.
  - vm_compute. auto.
Qed.
(** The first of these two: cut off after the third pop, with push and a pop left out. *)
Example C81_cut_ex : cut_off (run_fails sizeOf None tt [5]%Z) 0 [push 7; pop; pop; pop; push 7; clear] [pop; pop].
Proof.
  eapply (cut_after _ _ _ [push 7; pop; pop] pop [push 7; clear] [pop]); [reflexivity|simpl; lia| | |simpl; auto 10].
  - intros j Hj [ops [u [w' [He Hb]]]]. apply C43_run in He. simpl in Hj.
    assert (Hc : j = 0 \/ j = 1 \/ j = 2 \/ j = 3) by lia. destruct Hc as [->|[->|[->| ->]]]; vm_compute in He; inversion He; subst; destruct Hb as [Hb|Hb]; auto.
  - eapply run_fails_intro. reflexivity.
Qed.

(** The last of the reported actions need not be the one that fails: here the drawn actions [b; c; d] fail at d; without b they fail at c already, and still d is kept. *)
Theorem C81_last_refuted : ~ (forall E O M W A fuel ev dr dd gs stale (s : sprop E O M W) w n why rep s' after,
  offers_only A (sp_actionGen s) -> independent A (sp_modelFactory s) None -> no_hidden_failure A (sp_modelFactory s) None ->
  (forall r e r', sp_initialGen s r <> Ok (inr e, r')) -> sp_postCheck s = None -> sp_onStartup s = None -> sp_onCleanup s = None ->
  ord_regen ev = ord_call ev -> order 2 (ord_each ev) ->
  sgo fuel ev dr dd gs stale s w = (Ok (VFalsified n why rep, s'), after) ->
  forall o1 p x, simplest_args rep = [inl o1; inr (p ++ [x])] -> ~ run_fails (sp_modelFactory s) None w o1 p).
Proof.
  intros H. pose proof (H replay (list nat) unit unit silent 5%nat (inOrder 2 [3; 0; 1; 2]%Z) 2%nat 0%Z 1%Z stale1 bcdProp tt) as X. clear H.
  assert (Hs : match fst (sgo 5 (inOrder 2 [3; 0; 1; 2]%Z) 2 0 1 stale1 bcdProp tt) with Ok (VFalsified n why rep, _) => simplest_args rep = [inl []; inr ([cAct] ++ [dAct])] | _ => False end)
    by (vm_compute; reflexivity).
  destruct (sgo 5 (inOrder 2 [3; 0; 1; 2]%Z) 2 0 1 stale1 bcdProp tt) as [g after]. cbn [fst] in Hs. destruct g as [[[|p sm|n why rep] s']| | |]; try contradiction.
  refine (X n why rep s' after bcd_offered (unit_independent _ _ _ _ _) (silent_hidden None _) nothingYet_quiet eq_refl eq_refl eq_refl eq_refl (Permutation_refl _) eq_refl [] [cAct] dAct Hs _).
  - discriminate.
  - eapply run_fails_intro. reflexivity.
Qed.

(** With a check after the last action a shorter failing prefix can be missed: here the drawn actions note 7, 1, 2, 3; the check fails after them and after the first
    alone; all four are reported. *)
Theorem C81_check_refuted : ~ (forall E O M W A fuel ev dr dd gs stale (s : sprop E O M W) w n why rep s' after,
  offers_only A (sp_actionGen s) -> independent A (sp_modelFactory s) (sp_postCheck s) -> no_hidden_failure A (sp_modelFactory s) (sp_postCheck s) ->
  (forall r e r', sp_initialGen s r <> Ok (inr e, r')) -> sp_onStartup s = None -> sp_onCleanup s = None ->
  ord_regen ev = ord_call ev -> order 2 (ord_each ev) ->
  sgo fuel ev dr dd gs stale s w = (Ok (VFalsified n why rep, s'), after) ->
  forall o0 o1 acts acts', with_args rep = [inl o0; inr acts] -> simplest_args rep = [inl o1; inr acts'] ->
    forall k, k <= length acts -> run_fails (sp_modelFactory s) (sp_postCheck s) w (meanwhile (Nat.eqb (hd 0 (ord_each ev)) 0) o1 o0) (firstn k acts) -> length acts' <= k).
Proof.
  intros H. pose proof (H replay (list nat) unit unit silent 5%nat (inOrder 2 [4; 7; 1; 2; 3]%Z) 2%nat 0%Z 1%Z stale1 noteProp tt) as X. clear H.
  assert (Hs : match fst (sgo 5 (inOrder 2 [4; 7; 1; 2; 3]%Z) 2 0 1 stale1 noteProp tt) with Ok (VFalsified n why rep, _) =>
    with_args rep = [inl []; inr (map note [7; 1; 2; 3])] /\ simplest_args rep = [inl []; inr (map note [7; 1; 2; 3])] | _ => False end) by (vm_compute; auto).
  destruct (sgo 5 (inOrder 2 [4; 7; 1; 2; 3]%Z) 2 0 1 stale1 noteProp tt) as [g after]. cbn [fst] in Hs. destruct g as [[[|p sm|n why rep] s']| | |]; try contradiction.
  assert (Hk : 4 <= 1); [|lia].
  refine (X n why rep s' after notes_offered (unit_independent _ _ _ _ _) (silent_hidden _ check4_silent) nothingYet_quiet eq_refl eq_refl eq_refl (Permutation_refl _) eq_refl
    [] [] (map note [7; 1; 2; 3]) (map note [7; 1; 2; 3]) (proj1 Hs) (proj2 Hs) 1 _ _).
  - simpl. lia.
  - eapply run_fails_intro. reflexivity.
Qed.

(** A falsified stateful test, with or without a check: if putting actions back keeps a list failing then no single one of the reported actions can be left out
    (before their arguments were shrunk). *)
Theorem C81_minimal : forall E O M W A fuel ev dr dd gs stale (s : sprop E O M W) w n why rep s' after,
  offers_only A (sp_actionGen s) -> independent A (sp_modelFactory s) (sp_postCheck s) -> no_hidden_failure A (sp_modelFactory s) (sp_postCheck s) ->
  (forall r e r', sp_initialGen s r <> Ok (inr e, r')) -> sp_onStartup s = None -> sp_onCleanup s = None ->
  ord_regen ev = ord_call ev -> order 2 (ord_each ev) ->
  sgo fuel ev dr dd gs stale s w = (Ok (VFalsified n why rep, s'), after) ->
  exists o0 o1 vec us rs, with_args rep = [inl o0; inr (map root vec)] /\ simplest_args rep = [inl o1; inr (map root rs)] /\
    In us (sublists vec) /\ Forall2 (fun e e' => reach e e') us rs /\ run_fails (sp_modelFactory s) (sp_postCheck s) w o1 (map root rs) /\
    let fails := run_fails (sp_modelFactory s) (sp_postCheck s) w (meanwhile (Nat.eqb (hd 0 (ord_each ev)) 0) o1 o0) in
    (stays_failing fails 0 (map root vec) -> fails (map root us) /\ (us = [] \/ needs_all fails (map root us))).
Proof.
  intros E O M W A fuel ev dr dd gs stale s w n why rep s' after HA Hi Hh Hq H1 H2 Ho Hoe H.
  destruct (go_actions _ _ _ _ _ _ _ _ _ _ _ _ _ _ _ _ _ _ HA Hi Hh Hq H1 H2 Ho Hoe H)
    as [o0 [o1 [vec [q [q' [us [rs [G1 [G2 [G3 [G4 [G5 [G6 [G7 [G8 [G9 [_ G10]]]]]]]]]]]]]]]]].
  exists o0, o1, vec, us, rs. split; auto. split; auto. split; auto. split; auto. split; auto. intros fails Hst.
  destruct (G10 Hst) as [F1 F2]. split; auto. destruct F2 as [F2|F2]; [left|right; auto]. rewrite map_length in F2. apply length_zero_iff_nil. auto.
Qed.

(** The check fails when 7 and 3 have been noted. *)
Definition check73 (o : list nat) (m : unit) : eff unit unit := if existsb (Nat.eqb 7) o && existsb (Nat.eqb 3) o then ethrow EAssert else eret tt.
Definition noteProp2 : sprop replay (list nat) unit unit := sconfigure (new_sprop nothingYet noModel notes) (SPostCheck check73).
Lemma note_body : forall l o, applyAll (map note l) o tt tt = ([], inl (o ++ l, tt), tt).
Proof. induction l as [|n l IH]; intros o; cbn [map applyAll]; [rewrite app_nil_r; reflexivity|]. unfold ebind. cbn [note a_func eret]. unfold eret. rewrite IH, <- app_assoc. reflexivity. Qed.
Lemma note_fails : forall l, run_fails noModel (Some check73) tt [] (map note l) <-> existsb (Nat.eqb 7) l && existsb (Nat.eqb 3) l = true.
Proof.
  intros l. rewrite run_fails_bad.
  assert (Hb : on_args (statefulBody noModel (Some check73)) [inl []; inr (map note l)] tt =
    ([], if existsb (Nat.eqb 7) l && existsb (Nat.eqb 3) l then UThrow EAssert else URet true, tt)).
  { unfold on_args, statefulBody, ebind, noModel, eret. rewrite note_body. unfold check73. cbn [app]. destruct (existsb (Nat.eqb 7) l && existsb (Nat.eqb 3) l); reflexivity. }
  unfold bad, abeh. rewrite Hb. cbn [fst snd]. destruct (existsb (Nat.eqb 7) l && existsb (Nat.eqb 3) l); split; intros H; auto; try discriminate.
  - left. discriminate.
  - destruct H as [H|H]; exfalso; apply H; reflexivity.
Qed.
Example C81_minimal_ex : offers_only silent (sp_actionGen noteProp2) /\ independent silent (sp_modelFactory noteProp2) (sp_postCheck noteProp2) /\
  no_hidden_failure silent (sp_modelFactory noteProp2) (sp_postCheck noteProp2) /\
  match fst (sgo 5 (inOrder 2 [5; 3; 7; 1; 3; 7]%Z) 2 0 1 stale1 noteProp2 tt) with
  | Ok (VFalsified n why rep, _) => with_args rep = [inl []; inr (map note [3; 7; 1; 3; 7])] /\ simplest_args rep = [inl []; inr (map note [3; 7])] | _ => False end /\
  stays_failing (run_fails noModel (Some check73) tt []) 0 (map note [3; 7; 1; 3; 7]) /\ needs_all (run_fails noModel (Some check73) tt []) (map note [3; 7]).
Proof.
  split; [exact notes_offered|]. split; [apply unit_independent|]. split.
  { apply silent_hidden. intros f o m w ops r w' E H. inversion E; subst. unfold check73 in H.
    destruct (existsb (Nat.eqb 7) o && existsb (Nat.eqb 3) o); inversion H; subst; split; auto; intros e He; inversion He; auto. }
  split; [vm_compute; auto|]. split.
  - intros a b Hb Ha _ Hf. rewrite sublists_map in Hb. apply in_map_iff in Hb. destruct Hb as [b' [<- Hb]]. rewrite sublists_map in Ha. apply in_map_iff in Ha. destruct Ha as [a' [<- Ha]].
    apply note_fails. apply note_fails in Hf. apply andb_true_iff in Hf. destruct Hf as [F1 F2]. apply andb_true_iff.
    rewrite existsb_exists in *. rewrite existsb_exists. destruct F1 as [x [X1 X2]]. destruct F2 as [y [Y1 Y2]].
    split; [exists x|exists y]; split; auto; eapply sublists_In; eauto.
  - intros a x b E. destruct a as [|y [|z [|? ?]]]; inversion E; subst; change (~ run_fails noModel (Some check73) tt [] (map note [7])) || change (~ run_fails noModel (Some check73) tt [] (map note [3])) || idtac;
      try (intros H; apply note_fails in H; discriminate H).
Qed.

(** * Class-based tests *)

(** The same for a class-based test with a model, the list of actions being a vector of generated ones. *)
Theorem C81_class : forall E O M W A fuel ev dr dd gs (factory : O -> eff W (O * M)) ig (elemGen : gen E (caction O M W)) mn mx w n why rep s',
  offers_only A elemGen -> cindependent A factory -> cno_hidden_failure A factory -> (forall r e r', ig r <> Ok (inr e, r')) ->
  (0 <= mn <= mx)%Z -> (mx <= Base.UINT32_MAX)%Z -> ord_regen ev = ord_call ev -> order 2 (ord_each ev) ->
  runForAll fuel ev (classProperty dr dd gs (Some factory) ig (arbi_vector elemGen {| minSize := mn; maxSize := mx |})) w = Ok (VFalsified n why rep, s') ->
  exists o0 o1 vec q q' us rs, draws elemGen q vec q' /\ (mn <= size vec <= mx)%Z /\
    with_args rep = [inl o0; inr (map root vec)] /\ simplest_args rep = [inl o1; inr (map root rs)] /\
    crun_fails factory w o1 (map root rs) /\
    let fails := crun_fails factory w (meanwhile (Nat.eqb (hd 0 (ord_each ev)) 0) o1 o0) in
    cut_off (fun l => fails (map root l)) (Z.to_nat mn) vec us /\ fails (map root us) /\ Forall2 (fun e e' => reach e e') us rs.
Proof.
  intros E O M W A fuel ev dr dd gs factory ig eg mn mx w n why rep s' HA Hi Hh Hq Hmn Hmx Ho Hoe H.
  edestruct (actions_scan E O _ W fuel ev (classProperty dr dd gs (Some factory) ig (arbi_vector eg {| minSize := mn; maxSize := mx |})) (on_args (classBody2 factory)) ig eg A mn mx w) as
    [o0 [o1 [vec [q [q' [us [rs [G1 [G2 [G3 [G4 [G5 [G6 [G7 [G8 G9]]]]]]]]]]]]]]]; [reflexivity|reflexivity|reflexivity|reflexivity|exact Hmn|exact Hmx|exact HA|exact Hq| | |exact Ho|exact Hoe|exact H|].
  - intros o l w0 HF. destruct (on_args (classBody2 factory) [inl o; inr l] w) as [[ops u] w1] eqn:B. apply class_ends in B.
    destruct (Hi _ _ _ _ _ _ HF B) as [_ Hx]. specialize (Hx w0). apply class_ends in Hx. exact Hx.
  - intros o l HF Hx. destruct (on_args (classBody2 factory) [inl o; inr l] w) as [[ops u] w1] eqn:B. apply class_ends in B. cbn [fst snd] in *.
    split; intros ->; apply Hx; eapply Hh; eauto.
  - cbv zeta in *. destruct G9 as [F1 [F2 [F3 F4]]]. destruct F3 as [us' [rs' [U1 [U2 [U3 U4]]]]].
    { intros j k A1 A2 A3 A4. apply crun_fails_bad. apply crun_fails_bad in A4.
      exact (decided_prefixes _ _ _ _ (crun_decided _ _ _ factory w (meanwhile (Nat.eqb (hd 0 (ord_each ev)) 0) o1 o0)) j k A1 A2 A3 A4). }
    exists o0, o1, vec, q, q', us', rs'. rewrite U4. split; auto. split; auto. split; auto. split; auto. split; [apply crun_fails_bad; auto|].
    split; [eapply cut_off_iff; [|exact U1]; intros; cbv beta; symmetry; apply crun_fails_bad|]. split; auto. apply crun_fails_bad. auto.
Qed.

Definition countAct (a : caction Z Z unit) : Prop := a = give \/ a = take \/ a = lose.
Definition countActs : gen replay (caction Z Z unit) := gbind (draw 0 2) (fun z => gret (Node (if (z =? 0)%Z then give else if (z =? 1)%Z then take else lose) [])).
Definition aCount : xgen replay Z := gbind (draw 0 9) (fun z => gret (inl (elift (Node z [])))).
Definition asModel (o : Z) : eff unit (Z * Z) := eret (o, o).
Definition countProp2 : property replay (Z + list (caction Z Z unit)) unit := classProperty 2 0 1 (Some asModel) aCount (arbi_vector countActs {| minSize := 1; maxSize := 9 |}).
Lemma countAct_cran : forall n l st ops d st', cran n l st ops d st' -> Forall countAct l -> ops = [].
Proof.
  intros n l st ops d st' H. induction H as [|n a l o m w ops1 w1 ops2 done st Hp H IH|n a l o m w ops1 w1 ops2 o2 m2 w2 ops3 done st Hp Hr H IH]; intros Hl; auto; inversion Hl; subst;
    match goal with A : countAct a |- _ => destruct A as [->|[->| ->]] end; cbn in Hp; inversion Hp; subst; try (cbn in Hr; inversion Hr; subst); simpl; apply IH; auto.
Qed.
Lemma count_hidden : cno_hidden_failure countAct asModel.
Proof.
  intros o l w ops e w' Hl H He. inversion H; subst.
  - discriminate.
  - match goal with A : asModel _ _ = _ |- _ => cbn in A; inversion A; subst end. apply Forall_app in Hl. destruct Hl as [Hl Ha].
    match goal with R : cran _ _ _ _ _ _ |- _ => apply countAct_cran in R; [subst|assumption] end. inversion Ha as [|? ? Hca _]; subst.
    match goal with A : cstops _ _ _ _ _ _ _ |- _ => inversion A; subst end; destruct Hca as [->|[->| ->]];
      match goal with A : precondition2 _ _ _ _ = _ |- _ => cbn in A; inversion A; subst end;
      try match goal with A : run2 _ _ _ _ = _ |- _ => cbn in A; inversion A; subst end; reflexivity.
Qed.
Lemma count_offered : offers_only countAct countActs.
Proof.
  intros r t r' H s Hs. unfold countActs in H. apply ContainerProof.gbind_ok in H. destruct H as (z & r1 & _ & H). unfold gret in H. inversion H; subst.
  inversion Hs; subst; [|contradiction]. cbn [root]. unfold countAct. destruct (z =? 0)%Z; auto. destruct (z =? 1)%Z; auto.
Qed.
(** Starting from 2: give, lose, give, take, take, take and give are drawn; lose and take are reported. *)
Example C81_class_ex : offers_only countAct countActs /\ cindependent countAct asModel /\ cno_hidden_failure countAct asModel /\ (forall r e r', aCount r <> Ok (inr e, r')) /\
  match runForAll 5 (inOrder 2 [2; 7; 0; 2; 0; 1; 1; 1; 0]%Z) countProp2 tt with
  | Ok (VFalsified n why rep, _) => with_args rep = [inl 2%Z; inr [give; lose; give; take; take; take; give]] /\ simplest_args rep = [inl 2%Z; inr [lose; take]] | _ => False end /\
  crun_fails asModel tt 2%Z [lose; take].
Proof.
  split; [exact count_offered|]. split; [intros o l [] ops u [] _ H; split; auto; intros []; auto|]. split; [exact count_hidden|]. split.
  { intros r e r' H. unfold aCount in H. apply ContainerProof.gbind_ok in H. destruct H as (z & r1 & _ & H). discriminate. }
  split; [vm_compute; auto|]. exists [], (UThrow EAssert), tt. split; [apply C45_run; reflexivity|left; discriminate].
Qed.

(** The same without a model. *)
Theorem C81_class_no_model : forall E O M W (A : caction O M W -> Prop) fuel ev dr dd gs ig (elemGen : gen E (caction O M W)) mn mx w n why rep s',
  offers_only A elemGen ->
  cindependent (fun a => exists b, a = without_model b /\ A b) (fun o : O => eret (o, tt)) -> cno_hidden_failure (fun a => exists b, a = without_model b /\ A b) (fun o : O => eret (W := W) (o, tt)) ->
  (forall r e r', ig r <> Ok (inr e, r')) ->
  (0 <= mn <= mx)%Z -> (mx <= Base.UINT32_MAX)%Z -> ord_regen ev = ord_call ev -> order 2 (ord_each ev) ->
  runForAll fuel ev (classProperty dr dd gs None ig (arbi_vector elemGen {| minSize := mn; maxSize := mx |})) w = Ok (VFalsified n why rep, s') ->
  exists o0 o1 vec q q' us rs, draws elemGen q vec q' /\ (mn <= size vec <= mx)%Z /\
    with_args rep = [inl o0; inr (map root vec)] /\ simplest_args rep = [inl o1; inr (map root rs)] /\
    crun_fails (fun o => eret (o, tt)) w o1 (map without_model (map root rs)) /\
    let fails l := crun_fails (fun o => eret (o, tt)) w (meanwhile (Nat.eqb (hd 0 (ord_each ev)) 0) o1 o0) (map without_model l) in
    cut_off (fun l => fails (map root l)) (Z.to_nat mn) vec us /\ fails (map root us) /\ Forall2 (fun e e' => reach e e') us rs.
Proof.
  intros E O M W A fuel ev dr dd gs ig eg mn mx w n why rep s' HA Hi Hh Hq Hmn Hmx Ho Hoe H.
  assert (HF' : forall l : list (caction O M W), Forall A l -> Forall (fun a => exists b, a = without_model b /\ A b) (map without_model l)) by (induction 1; simpl; constructor; eauto).
  edestruct (actions_scan E O _ W fuel ev (classProperty dr dd gs None ig (arbi_vector eg {| minSize := mn; maxSize := mx |})) (on_args classBody1) ig eg A mn mx w) as
    [o0 [o1 [vec [q [q' [us [rs [G1 [G2 [G3 [G4 [G5 [G6 [G7 [G8 G9]]]]]]]]]]]]]]]; [reflexivity|reflexivity|reflexivity|reflexivity|exact Hmn|exact Hmx|exact HA|exact Hq| | |exact Ho|exact Hoe|exact H|].
  - intros o l w0 HF. destruct (on_args classBody1 [inl o; inr l] w) as [[ops u] w1] eqn:B. apply class1_ends in B.
    destruct (Hi _ _ _ _ _ _ (HF' _ HF) B) as [_ Hx]. specialize (Hx w0). apply class1_ends in Hx. exact Hx.
  - intros o l HF Hx. destruct (on_args classBody1 [inl o; inr l] w) as [[ops u] w1] eqn:B. apply class1_ends in B. cbn [fst snd] in *.
    split; intros ->; apply Hx; exact (Hh _ _ _ _ _ _ (HF' _ HF) B ltac:(auto)).
  - cbv zeta in *. destruct G9 as [F1 [F2 [F3 F4]]]. destruct F3 as [us' [rs' [U1 [U2 [U3 U4]]]]].
    { intros j k A1 A2 A3 A4. apply crun1_fails_bad. apply crun1_fails_bad in A4. rewrite <- !firstn_map in *.
      refine (decided_prefixes _ _ (Z.to_nat mn) _ (crun_decided _ _ _ (fun o => eret (o, tt)) w (meanwhile (Nat.eqb (hd 0 (ord_each ev)) 0) o1 o0)) j k A1 A2 _ A4). rewrite map_length. auto. }
    exists o0, o1, vec, q, q', us', rs'. rewrite U4. split; auto. split; auto. split; auto. split; auto. split; [apply crun1_fails_bad; auto|].
    split; [eapply cut_off_iff; [|exact U1]; intros; cbv beta; symmetry; apply crun1_fails_bad|]. split; auto. apply crun1_fails_bad. auto.
Qed.

(** Without a model: [sub] subtracts one and reports whether the counter was positive; [halve] needs a counter above 4. *)
Definition sub1 : caction Z Z unit := {| c_pre2 := None; c_pre1 := None; c_run2 := None; c_run1 := Some (fun o => eret (o - 1, 0 <? o)%Z) |}.
Definition halve : caction Z Z unit := {| c_pre2 := None; c_pre1 := Some (fun o => eret (4 <? o)%Z); c_run2 := None; c_run1 := Some (fun o => eret (o / 2, true)%Z) |}.
Definition subActs : gen replay (caction Z Z unit) := gbind (draw 0 1) (fun z => gret (Node (if (z =? 0)%Z then sub1 else halve) [])).
Definition subAct (a : caction Z Z unit) : Prop := a = sub1 \/ a = halve.
Definition subProp : property replay (Z + list (caction Z Z unit)) unit := classProperty 2 0 1 None aCount (arbi_vector subActs {| minSize := 0; maxSize := 9 |}).
Lemma sub_cran : forall n l st ops d st', cran n l st ops d st' -> Forall (fun a => exists b, a = without_model b /\ subAct b) l -> ops = [].
Proof.
  intros n l st ops d st' H. induction H as [|n a l o m w ops1 w1 ops2 done st Hp H IH|n a l o m w ops1 w1 ops2 o2 m2 w2 ops3 done st Hp Hr H IH]; intros Hl; auto; inversion Hl; subst;
    match goal with A : exists b, a = _ /\ _ |- _ => destruct A as [b [-> [->| ->]]] end; cbn in Hp; inversion Hp; subst; try (cbn in Hr; inversion Hr; subst); simpl; apply IH; auto.
Qed.
Lemma sub_hidden : cno_hidden_failure (fun a => exists b, a = without_model b /\ subAct b) (fun o : Z => eret (W := unit) (o, tt)).
Proof.
  intros o l w ops e w' Hl H He. inversion H; subst.
  - discriminate.
  - match goal with A : eret _ _ = _ |- _ => unfold eret in A; inversion A; subst end. apply Forall_app in Hl. destruct Hl as [Hl Ha].
    match goal with R : cran _ _ _ _ _ _ |- _ => apply sub_cran in R; [subst|assumption] end. inversion Ha as [|? ? Hca _]; subst.
    match goal with A : cstops _ _ _ _ _ _ _ |- _ => inversion A; subst end; destruct Hca as [b [-> [->| ->]]];
      match goal with A : precondition2 _ _ _ _ = _ |- _ => cbn in A; inversion A; subst end;
      try match goal with A : run2 _ _ _ _ = _ |- _ => cbn in A; inversion A; subst end; reflexivity.
Qed.
Lemma sub_offered : offers_only subAct subActs.
Proof.
  intros r t r' H s Hs. unfold subActs in H. apply ContainerProof.gbind_ok in H. destruct H as (z & r1 & _ & H). unfold gret in H. inversion H; subst.
  inversion Hs; subst; [|contradiction]. cbn [root]. unfold subAct. destruct (z =? 0)%Z; auto.
Qed.
Example C81_class_no_model_ex : offers_only subAct subActs /\ cindependent (fun a => exists b, a = without_model b /\ subAct b) (fun o : Z => eret (W := unit) (o, tt)) /\
  cno_hidden_failure (fun a => exists b, a = without_model b /\ subAct b) (fun o : Z => eret (W := unit) (o, tt)) /\
  match runForAll 5 (inOrder 2 [5; 8; 0; 1; 1; 0; 0; 0; 0; 0]%Z) subProp tt with
  | Ok (VFalsified n why rep, _) => with_args rep = [inl 5%Z; inr [sub1; halve; halve; sub1; sub1; sub1; sub1; sub1]] /\ simplest_args rep = [inl 5%Z; inr [sub1; sub1; sub1; sub1; sub1; sub1]] | _ => False end.
Proof.
  split; [exact sub_offered|]. split; [intros o l [] ops u [] _ H; split; auto; intros []; auto|]. split; [exact sub_hidden|]. vm_compute. auto.
Qed.

Print Assumptions C81_vector.
Print Assumptions C81_decided.
Print Assumptions C81_actions.
Print Assumptions C81_actions_same.
Print Assumptions C81_length.
Print Assumptions C81_last_refuted.
Print Assumptions C81_check_refuted.
Print Assumptions C81_minimal.
Print Assumptions C81_class.
Print Assumptions C81_class_no_model.
