(** Proofs about shrinking one argument made by map with a function that throws. *)
From Coq Require Import String List ZArith Bool Lia.
From Verif Require Import Base TreeModel TreeSpec TreeProof RandomModel TupleModel EffModel EffSpec EffProof ContextModel ContextSpec RunnerModel RunnerSpec RunnerProof
  RunnerShrinkProof RunnerLogProof ThrowModel ThrowSpec LazyModel LazySpec LazyProof.
Import ListNotations.
Local Open Scope list_scope.

Section Mapped.
  Context {E : engine} {A V W : Type} (X : xproperty E V W) (beh : list V -> list op * ures) (f : A -> V + err) (fails : V -> bool).
  Hypothesis Hp : pure_property (base X) beh.
  Hypothesis Ht : forall a, snd (beh a) <> UThrow ENonStd.
  Hypothesis Hb : forall b, fails b = true <-> bad beh [b].
  Notation rf := (@raising E A V f).
  Notation pt := (fun b => @gret E bool (negb (fails b))).

  Fixpoint xmap_s (ts : list (tree A)) : xstream E V + err :=
    match ts with
    | [] => inl XNil
    | h :: r => match xmap f h with
                | inr e => inr e
                | inl h' => inl (XCons h' (gret (xmap_s r)))
                end
    end.
  Lemma xmap_eq : forall t, xmap (E := E) f t = match f (root t) with inr e => inr e | inl b => inl (XNode b (gret (xmap_s (shrinks t)))) end.
  Proof. intros [a ts]. cbn [xmap root shrinks]. destruct (f a) as [b|e]; auto. Qed.

  Lemma test_mapped : forall (c0 : xtree E V) v c (s : rs E V W), failures c = [] ->
    exists bb c' s', test (plain X) 0 [emake (xroot c0)] v c s = Ok (bb, c', s') /\ (negb bb || hasFailures c' = fails v) /\ (fails v = false -> failures c' = []) /\ rnd s' = rnd s.
  Proof.
    intros c0 v c s Hc. destruct Hp as [Hf [Hs1 Hs2]].
    assert (Htame : tame (plain X)).
    { split; [|split].
      - intros args w. cbn [func plain]. rewrite Hf. cbn [fst snd]. apply Ht.
      - intros h w H. cbn [onStartup plain] in H. congruence.
      - intros h w H. cbn [onCleanup plain] in H. congruence. }
    destruct (test_total E V W (plain X) 0 [emake (xroot c0)] v c s Htame) as [bb [c' [s' H]]]. exists bb, c', s'. split; auto.
    assert (HP : pure_property (plain X) beh) by (split; [exact Hf|split; assumption]).
    destruct (test_pure E V W (plain X) beh _ _ _ _ _ _ _ _ HP Hc H) as [H1 H2]. cbn [set_nth map] in *.
    assert (Hr : rnd s' = rnd s) by (rewrite H1; reflexivity).
    destruct (negb bb || hasFailures c').
    - apply Hb in H2. rewrite H2. split; auto. split; [discriminate|auto].
    - destruct H2 as [H2 H3]. destruct (fails v) eqn:Ef; [exfalso; apply H2, Hb; auto|]. auto.
  Qed.

  Definition follows (x : res (V * rst E)) (s : rs E V W) (y : res ((list (xtree E V) + err) * rs E V W)) : Prop :=
    match x with
    | Ok (v, _) => exists t s', y = Ok (inl [t], s') /\ xroot t = v /\ rnd s' = rnd s
    | Throw e => exists s', y = Ok (inr e, s') /\ rnd s' = rnd s
    | _ => False
    end.
  Lemma follows_rnd : forall x s s1 y, rnd s1 = rnd s -> follows x s1 y -> follows x s y.
  Proof. intros x s s1 y H Hy. unfold follows in *. rewrite <- H. exact Hy. Qed.

  Definition mirrors (ts : list (tree A)) : Prop := forall r : rst E,
    match lmap_s rf (elist ts) r with
    | Ok (st, r') => r' = r /\ exists xs, xmap_s ts = inl xs /\
        forall cur t0 c (s : rs E V W), xroot t0 = cur -> failures c = [] -> follows (lsearch pt cur st r) s (xshrinkStream X 0 [t0] c xs s)
    | Throw e => xmap_s ts = inr e
    | _ => False
    end.

  Lemma mirrors_list : forall ts, Forall (fun c => mirrors (shrinks c)) ts -> mirrors ts.
  Proof.
    induction 1 as [|t ts Hk _ IH]; intros r.
    - cbn. split; auto. exists XNil. split; auto. intros cur t0 c s <- _. cbn. eauto 6.
    - cbn [elist]. rewrite elift_eq. cbn [lmap_s lmap]. unfold gbind at 1 2. unfold raising at 1. cbn [xmap_s]. rewrite xmap_eq.
      destruct (f (root t)) as [b|e] eqn:Ef; [|reflexivity]. unfold gret at 1 2 3. split; auto. eexists. split; [reflexivity|].
      intros cur t0 c s Hr Hc. cbn [lsearch xshrinkStream]. unfold gret at 6.
      assert (E1 : forall q, gbind (gret (elist ts)) (lmap_s rf) q = lmap_s rf (elist ts) q) by reflexivity.
      unfold gbind at 1. rewrite E1. clear E1. specialize (IH r). destruct (lmap_s rf (elist ts) r) as [[st r']| |e|]; try contradiction.
      2:{ rewrite IH. cbn. eauto. }
      destruct IH as [-> [xs [Ex IH]]]. rewrite Ex. cbn [map xroot].
      match goal with |- context [match gret ?a ?b with _ => _ end] => change (gret a b) with (@Ok ((xstream E V + err) * rst E) (a, b)) end. cbv iota beta.
      destruct (test_mapped t0 b c (with_rnd (rnd s) s) Hc) as (bb & c' & s2 & Et & E2 & E3 & E4). rewrite Et. cbn [bind]. rewrite E2.
      unfold gbind at 1. cbn [eroot]. destruct (fails b) eqn:Eb; cbn [negb].
      + cbn [lsearch_t xshrinkTree].
        match goal with |- context [match gret ?a ?b with _ => _ end] => change (gret a b) with (@Ok ((xstream E V + err) * rst E) (a, b)) end. cbv iota beta.
        match goal with |- follows ?x _ _ => change x with (gbind (lmap_s rf (elist (shrinks t))) (lsearch pt b) r) end.
        specialize (Hk r). unfold gbind. destruct (lmap_s rf (elist (shrinks t)) r) as [[st2 r2]| |e|]; try contradiction.
        * destruct Hk as [-> [xs2 [Ex2 Hk]]]. rewrite Ex2. cbn [set_nth].
          refine (follows_rnd _ _ _ _ _ (Hk b (XNode b (gret (inl xs2))) newctx (with_rnd (rnd s2) s2) eq_refl eq_refl)). cbn. rewrite E4. reflexivity.
        * rewrite Hk. cbn. eexists. split; [reflexivity|]. exact E4.
      + refine (follows_rnd _ _ _ _ _ (IH cur t0 c' s2 Hr (E3 eq_refl))). exact E4.
  Qed.
  Lemma mirrors_all : forall u, mirrors (shrinks u).
  Proof. induction u as [a ts IH] using tree_ind'. apply mirrors_list. exact IH. Qed.

  Lemma mapped_shrink : forall (ev : env E) (g : G E (tree A)) (s : rs E V W) u r1,
    xgens X = [xtransform g f] -> ord_regen ev = [0] -> ord_shrinks ev = [0] -> ord_each ev = [0] -> g (rnd s) = Ok (u, r1) ->
    forall L v, descent shrinks (fun a => match f a with inl b => fails b | inr _ => false end) u L v ->
    exists s', rnd s' = r1 /\
      match firstError f (root u :: flat_map (fun p => firstn (S (length (snd p))) (map root (shrinks (fst p)))) L) with
      | Some e => xshrink ev X s = Ok (inr e, s')
      | None => exists b0 b, f (root u) = inl b0 /\ f v = inl b /\ xshrink ev X s = Ok (inl {| with_args := [b0]; simplest_args := [b] |}, s')
      end.
  Proof.
    intros ev g s u r1 Hx O1 O2 O3 Hg L v HD. unfold xshrink. rewrite Hx, O1, O2, O3.
    assert (E1 : evalTuple [0] [xtransform g f] (rnd s) = Ok (match xmap f u with inl t => inl [t] | inr e => inr e end, r1)).
    { unfold evalTuple, evalIn, xtransform. cbn [nth_error]. unfold gbind. rewrite Hg. unfold gret. destruct (xmap f u); reflexivity. }
    rewrite E1. clear E1. cbn [bind firstError]. rewrite xmap_eq. destruct (f (root u)) as [b|e] eqn:Ef.
    2:{ exists (with_rnd r1 s). split; reflexivity. }
    cbn [map xshrinks].
    assert (E2 : evalTuple [0] [gret (E := E) (xmap_s (shrinks u))] r1 = Ok (match xmap_s (shrinks u) with inl t => inl [t] | inr e => inr e end, r1)).
    { unfold evalTuple, evalIn. cbn [nth_error]. unfold gbind, gret. destruct (xmap_s (shrinks u)); reflexivity. }
    rewrite E2. clear E2. cbn [bind].
    pose proof (raise_search f fails u L v HD (elift u) b (denotes_elift E A u) Ef r1) as H. unfold called in H.
    rewrite elift_eq in H. cbn [eshrinks lsearch_t] in H.
    assert (E5 : gbind (gbind (gret (elist (shrinks u))) (lmap_s rf)) (lsearch pt b) r1 = gbind (lmap_s rf (elist (shrinks u))) (lsearch pt b) r1) by reflexivity.
    rewrite E5 in H. clear E5. pose proof (mirrors_all u r1) as M. unfold gbind in H.
    destruct (lmap_s rf (elist (shrinks u)) r1) as [[st q]| |e|]; try contradiction.
    - destruct M as [-> [xs [Ex M]]]. rewrite Ex. cbn [xshrinkEach nth_error].
      specialize (M b (XNode b (gret (xmap_s (shrinks u)))) newctx (with_rnd r1 s) eq_refl eq_refl). rewrite Ex in M.
      destruct (firstError f _) as [e|].
      + rewrite H in M. destruct M as [s' [M1 M2]]. exists s'. rewrite M1. split; [exact M2|reflexivity].
      + destruct H as [y [Hv H]]. rewrite H in M. destruct M as [t [s' [M1 [M2 M3]]]]. exists s'. rewrite M1. split; [exact M3|].
        exists b, y. cbn. rewrite M2. auto.
    - rewrite M. exists (with_rnd r1 s). split; [reflexivity|]. destruct (firstError f _) as [e'|].
      + congruence.
      + destruct H as [y [_ H]]. discriminate.
  Qed.
End Mapped.
