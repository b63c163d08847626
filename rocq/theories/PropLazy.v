(** C70: when and how often the functions given to map and filter are called. *)
From Coq Require Import List ZArith Bool Lia.
From Verif Require Import Base TreeModel TreeSpec TreeProof RandomModel IntegralProof EffModel LazyModel LazySpec LazyProof.
Import ListNotations.

(** With pure callbacks nothing of the laziness is seen: each operation on a lazily computed tree gives, lazily, what
    the operation of TreeModel.v gives at once. *)
Theorem C70_pure_maps : forall E A (t : etree E A) u, denotes t u ->
  (forall B (f : A -> B), yields (lmap (fun a => gret (f a)) t) (map_tree f u)) /\
  (forall B (f : A -> egen E B) fp, (forall a, yields (f a) (fp a)) -> yields (eflatMap f t) (flatMap_tree fp u)) /\
  (forall B (f : etree E A -> egen E B) fp, (forall s v, denotes s v -> yields (f s) (fp v)) ->
     yields (lmapShrinkable f t) (mapShrinkable fp u)) /\
  (forall n, denotes (ltake n t) (take_tree n u)).
Proof.
  intros E A t u H. repeat split; intros.
  - apply lmap_denotes; auto.
  - apply eflatMap_denotes; auto.
  - apply lmapShrinkable_denotes; auto.
  - apply ltake_denotes; auto.
Qed.

Theorem C70_pure_filters : forall E A (crit : A -> bool) (t : etree E A) u, denotes t u -> crit (root u) = true ->
  (exists u', filter_tree crit u = Ok u' /\ yields (lfilter (fun a => gret (crit a)) t) u') /\
  (forall tol fuel, tsize u <= fuel ->
     exists u', filter_tol fuel crit tol u = Ok u' /\ yields (lfilterTol (fun a => gret (crit a)) tol t) u').
Proof.
  intros E A crit t u H Hc. split.
  - destruct (filter_tree_ok A crit u Hc) as [u' [E1 _]]. exists u'. split; auto. eapply filter_denotes; eauto.
  - intros tol fuel Hf. apply lfilterTol_denotes; auto.
Qed.

Theorem C70_pure_extensions : forall E A (t : etree E A) u, denotes t u ->
  (forall thn thp, (forall s v, denotes s v -> denotes_g (thp v) (thn s)) ->
     denotes (lconcat thn t) (concat_tree thp u) /\ yields (eandThen thn t) (andThen thp u)) /\
  (forall thn ts, denotes_g ts thn ->
     denotes (lconcatStatic thn t) (concatStatic ts u) /\ yields (landThenStatic thn t) (andThenStatic ts u)).
Proof.
  intros E A t u H. split.
  - intros thn thp Ht. split; [apply lconcat_denotes|apply eandThen_denotes]; auto.
  - intros thn ts Ht. rewrite concatStatic_concat, andThenStatic_andThen. split; [apply lconcat_denotes|apply eandThen_denotes]; auto.
Qed.

(** Nor in the search: the lazy search visits what the search on the tree visits. *)
Theorem C70_pure_search : forall E A (fails : A -> bool) (t : etree E A) u, denotes t u ->
  exists L v, descent shrinks fails u L v /\ (forall L' v', descent shrinks fails u L' v' -> L' = L /\ v' = v) /\
    forall r, lsearch_t (fun a => gret (negb (fails a))) t r = Ok (v, r).
Proof.
  intros E A fails t u H. destruct (levels_exist A shrinks fails (fun t c => child_tsize A t c) u) as [L [v HD]].
  exists L, v. split; [exact HD|]. split.
  - intros L' v' HD'. eapply descent_unique; eauto.
  - intros r. eapply pure_search; eauto.
Qed.

(** The function given to transform is called on the generated value; then, on each level of the search, on the first
    candidate before anything is tested, and on the next candidate before each test. *)
Theorem C70_map_calls : forall A B (f : A -> B) (fails : B -> bool) (g : egen (journal A B) A) u, yields g u ->
  exists L v, descent shrinks (fun a => fails (f a)) u L v /\
    forall log : list (event A B),
      gbind (ltransformGen g (noting Called f)) (lsearch_t (noting Tested (fun b => negb (fails b)))) log =
      Ok (f v, log ++ Called (root u) ::
                 flat_map (fun p => level (fun a => [Called a]) (fun a => Tested (f a)) (fun _ => true)
                                          (map root (shrinks (fst p))) (snd p)) L).
Proof.
  intros A B f fails g u Hg.
  destruct (levels_exist A shrinks (fun a => fails (f a)) (fun t c => child_tsize A t c) u) as [L [v HD]].
  exists L, v. split; [exact HD|]. intros log. destruct (Hg log) as [t [E1 D1]].
  destruct (served_map A B f u t D1 log) as [w [E2 S2]]. unfold ltransformGen. rewrite (gbind_ok2 _ _ _ _ _ _ _ _ _ _ E1).
  rewrite (gbind_ok _ _ _ _ _ _ _ _ E2).
  rewrite (search_served f shrinks _ _ _ fails (fun a => Tested (f a)) Tested (fun a => eq_refl) u L v HD w S2).
  rewrite <- app_assoc. reflexivity.
Qed.

(** So the calls are: the generated value, and on each level the candidates tested and one more, if there is one. *)
Theorem C70_map_count : forall A B (f : A -> B) (fails : B -> bool) (g : egen (journal A B) A) u, yields g u ->
  exists L v log', descent shrinks (fun a => fails (f a)) u L v /\
    gbind (ltransformGen g (noting Called f)) (lsearch_t (noting Tested (fun b => negb (fails b)))) [] = Ok (f v, log') /\
    calls log' = root u :: flat_map (fun p => firstn (S (length (snd p))) (map root (shrinks (fst p)))) L /\
    tests log' = flat_map (fun p => map f (snd p)) L.
Proof.
  intros A B f fails g u Hg. destruct (C70_map_calls A B f fails g u Hg) as (L & v & HD & H).
  exists L, v. eexists. split; [exact HD|]. split; [apply H|]. pose proof (descent_tried _ _ _ _ _ _ HD) as HT. clear HD H.
  cbn [app]. split.
  - change (calls (Called (root u) :: ?x)) with (root u :: calls x). cbn [calls flat_map app]. f_equal.
    fold (calls (A := A) (B := B)). induction HT as [|p L Hp _ IH]; [reflexivity|].
    cbn [flat_map]. etransitivity; [apply calls_app|]. f_equal; [|exact IH]. apply map_level_calls. rewrite map_length. auto.
  - cbn [tests flat_map app]. fold (tests (A := A) (B := B)). induction HT as [|p L Hp _ IH]; [reflexivity|].
    cbn [flat_map]. etransitivity; [apply tests_app|]. f_equal; [|exact IH]. apply level_tests. reflexivity.
Qed.

(** The criteria given to filter is called twice on the generated value (once by the generator, once by the filter on
    the shrinkable); then, on each level of the search, on one element after the other, once on those it rejects and
    twice on those it accepts, as far as the first accepted one before anything is tested, and as far as the next accepted
    one before each test.  The shrinks of a rejected candidate (at most one of them) come in its place. *)
Theorem C70_filter_calls : forall A (crit : A -> bool) (fails : A -> bool) fuel (g : egen (journal A A) A) u,
  yields g u -> crit (root u) = true ->
  let kids t := flat_map (survivors crit 1) (shrinks t) in
  exists L v, descent kids fails u L v /\
    forall log : list (event A A),
      gbind (lfilterGen (S fuel) g (noting Called crit)) (lsearch_t (noting Tested (fun a => negb (fails a)))) log =
      Ok (v, log ++ Called (root u) :: Called (root u) ::
               flat_map (fun p => level (fun a => if crit a then [Called a; Called a] else [Called a]) Tested crit
                                        (flat_map (visited crit 1) (shrinks (fst p))) (snd p)) L).
Proof.
  intros A crit fails fuel g u Hg Hc kids.
  destruct (levels_exist A kids fails (fun t c => kids_smaller A crit 1 t c) u) as [L [v HD]].
  exists L, v. split; [exact HD|]. intros log. destruct (Hg log) as [t [E1 D1]]. cbn [lfilterGen].
  rewrite (gbind_ok2 _ _ _ _ _ _ _ _ _ _ E1). rewrite (denotes_root _ _ _ _ D1).
  assert (Ec : noting Called crit (root u) log = Ok (true, log ++ [Called (root u)])) by (unfold noting; rewrite Hc; reflexivity).
  rewrite (gbind_ok2 _ _ _ _ _ _ _ _ _ _ Ec).
  destruct (proj1 (tolServed_all (B := A) crit 1 u) t D1 Hc (log ++ [Called (root u)])) as [w [E2 S2]].
  rewrite (gbind_ok _ _ _ _ _ _ _ _ E2).
  rewrite (search_served (fun a => a) kids _ _ _ fails Tested Tested (fun a => eq_refl) u L v HD w S2).
  rewrite <- !app_assoc. reflexivity.
Qed.

(** The same for Shrinkable::filter without tolerance, which looks at the candidates only. *)
Theorem C70_filter_plain_calls : forall A (crit : A -> bool) (fails : A -> bool) (t : etree (journal A A) A) u,
  denotes t u -> crit (root u) = true ->
  let kids t := filter (fun c => crit (root c)) (shrinks t) in
  exists L v, descent kids fails u L v /\
    forall log : list (event A A),
      gbind (lfilter (noting Called crit) t) (lsearch_t (noting Tested (fun a => negb (fails a)))) log =
      Ok (v, log ++ Called (root u) ::
               flat_map (fun p => level (fun a => if crit a then [Called a; Called a] else [Called a]) Tested crit
                                        (map root (shrinks (fst p))) (snd p)) L).
Proof.
  intros A crit fails t u D1 Hc kids.
  destruct (levels_exist A kids fails) with (t := u) as [L [v HD]].
  { intros x c Hx. apply filter_In in Hx. apply child_tsize. tauto. }
  exists L, v. split; [exact HD|]. intros log.
  destruct (filter_served (B := A) crit u t D1 Hc log) as [w [E2 S2]].
  rewrite (gbind_ok _ _ _ _ _ _ _ _ E2).
  rewrite (search_served (fun a => a) kids _ _ _ fails Tested Tested (fun a => eq_refl) u L v HD w S2).
  rewrite <- !app_assoc. reflexivity.
Qed.

(** Mapping twice is mapping once with the composition, whatever the functions do: the effects come in the same order. *)
Theorem C70_map_fusion : forall E A B C (f : A -> G E B) (g : B -> G E C) (t : etree E A),
  same_g (gbind (lmap f t) (lmap g)) (lmap (fun a => gbind (f a) g) t).
Proof. intros. apply lmap_fusion_all. Qed.

(** A transformer that throws: the search throws the error of the first value, in the order of the calls, on which the
    transformer throws; if there is none the result is as usual.  The values on which it is called include, on each
    level, the one after the last tested: an error there aborts a search that never needed that value. *)
Theorem C70_map_throws : forall E A B (f : A -> B + err) (fails : B -> bool) (g : egen E A) u, yields g u ->
  exists L v, descent shrinks (fun a => match f a with inl b => fails b | inr _ => false end) u L v /\
    forall r, let run := gbind (ltransformGen g (raising f)) (lsearch_t (fun b => gret (negb (fails b)))) r in
      match firstError f (root u :: flat_map (fun p => firstn (S (length (snd p))) (map root (shrinks (fst p)))) L) with
      | Some e => run = Throw e
      | None => exists b, f v = inl b /\ run = Ok (b, r)
      end.
Proof.
  intros E A B f fails g u Hg.
  destruct (levels_exist A shrinks (fun a => match f a with inl b => fails b | inr _ => false end) (fun t c => child_tsize A t c) u) as [L [v HD]].
  exists L, v. split; [exact HD|]. intros r run. subst run. destruct (Hg r) as [t [E1 D1]]. unfold ltransformGen.
  rewrite (gbind_ok2 _ _ _ _ _ _ _ _ _ _ E1). cbn [firstError]. pose proof (denotes_root _ _ _ _ D1) as Er.
  destruct (f (root u)) as [b|e] eqn:Ef.
  - pose proof (raise_search f fails u L v HD t b D1 Ef r) as H. unfold called in H.
    assert (E2 : lmap (raising f) t r = Ok (ENode b (gbind (eshrinks t) (lmap_s (raising f))), r)).
    { destruct t as [a shr]. cbn [eroot] in Er. subst a. cbn [lmap]. unfold gbind at 1, raising at 1. rewrite Ef. reflexivity. }
    rewrite (gbind_ok _ _ _ _ _ _ _ _ E2). exact H.
  - apply gbind_throw. destruct t as [a shr]. cbn [eroot] in Er. subst a. cbn [lmap]. apply gbind_throw. unfold raising. rewrite Ef. reflexivity.
Qed.

(** A criteria that does not answer the same twice: if it accepts what was generated and then rejects it, generation
    ends with an exception. *)
Theorem C70_filter_unsteady : forall E A fuel (g : egen E A) (crit : A -> G E bool) r t r1 r2 r3,
  g r = Ok (t, r1) -> crit (eroot t) r1 = Ok (true, r2) -> crit (eroot t) r2 = Ok (false, r3) ->
  lfilterGen (S fuel) g crit r = Throw EInvalidArgument.
Proof.
  intros E A fuel g crit r t r1 r2 r3 H1 H2 H3. cbn [lfilterGen]. rewrite (gbind_ok _ _ _ _ _ _ _ _ H1), (gbind_ok _ _ _ _ _ _ _ _ H2).
  destruct t as [a shr]. cbn [eroot lfilterTol] in *. rewrite (gbind_ok _ _ _ _ _ _ _ _ H3). reflexivity.
Qed.

(** The same for the filter without tolerance, on a shrinkable and on its shrinks: there an element that the criteria
    accepts is asked again at once, and computing the shrinks ends with an exception if it is then rejected. *)
Theorem C70_filter_plain_unsteady : forall E A (crit : A -> G E bool),
  (forall (t : etree E A) r r1, crit (eroot t) r = Ok (false, r1) -> lfilter crit t r = Throw EInvalidArgument) /\
  (forall (t : etree E A) r r1, crit (eroot t) r = Ok (true, r1) -> exists t', lfilter crit t r = Ok (t', r1) /\ eroot t' = eroot t /\
     forall q h tl q1 s' q2 q3, eshrinks t q = Ok (ECons h tl, q1) -> tl q1 = Ok (s', q2) -> crit (eroot h) q2 = Ok (true, q3) ->
       (forall q4, crit (eroot h) q3 = Ok (false, q4) -> eshrinks t' q = Throw EInvalidArgument) /\
       (forall q4, crit (eroot h) q3 = Ok (true, q4) -> exists h' tl', eshrinks t' q = Ok (ECons h' tl', q4) /\ eroot h' = eroot h)).
Proof.
  intros E A crit.
  assert (H1 : forall (t : etree E A) r r1, crit (eroot t) r = Ok (false, r1) -> lfilter crit t r = Throw EInvalidArgument).
  { intros [a shr] r r1 H. cbn [lfilter eroot] in *. rewrite (gbind_ok _ _ _ _ _ _ _ _ H). reflexivity. }
  assert (H2 : forall (t : etree E A) r r1, crit (eroot t) r = Ok (true, r1) -> lfilter crit t r = Ok (ENode (eroot t) (gbind (eshrinks t) (lfilter_s crit)), r1)).
  { intros [a shr] r r1 H. cbn [lfilter eroot] in *. rewrite (gbind_ok _ _ _ _ _ _ _ _ H). reflexivity. }
  split; [exact H1|]. intros t r r1 H. eexists. split; [apply (H2 _ _ _ H)|]. split; [reflexivity|].
  intros q h tl q1 s' q2 q3 K1 K2 K3. cbn [eshrinks]. rewrite (gbind_ok _ _ _ _ _ _ _ _ K1). cbn [lfilter_s].
  rewrite (gbind_ok _ _ _ _ _ _ _ _ K2), (gbind_ok _ _ _ _ _ _ _ _ K3). split; intros q4 K4.
  - apply gbind_throw. apply (H1 _ _ _ K4).
  - rewrite (gbind_ok _ _ _ _ _ _ _ _ (H2 _ _ _ K4)). do 2 eexists. split; reflexivity.
Qed.

Local Open Scope Z_scope.
(** Examples: 8 shrinks to 4, 6, 7; 4 to 2, 3; 6 to 5. *)
Definition eight : tree Z :=
  Node 8 [Node 4 [Node 2 []; Node 3 []]; Node 6 [Node 5 []]; Node 7 []].
Definition eightGen {E} : egen E Z := gret (elift eight).
Example eight_yields : forall E, yields (@eightGen E) eight.
Proof. intros E r. eexists. split; [reflexivity|]. apply denotes_elift. Qed.

(* a criteria that answers from a list, here true for 8, true and then false for 4 *)
Definition answering : Z -> G replay bool := fun _ r => match r with [] => Ok (true, []) | z :: q => Ok (z =? 1, q) end.
Example C70_filter_plain_unsteady_ex :
  lfilter answering (elift eight) ([0] : rst replay) = Throw EInvalidArgument /\
  match lfilter answering (elift eight) ([1; 1; 0] : rst replay) with
  | Ok (t, q) => eroot t = 8 /\ q = [1; 0] /\ eshrinks t q = Throw EInvalidArgument /\
      match eshrinks t ([0; 1; 1; 5] : rst replay) with Ok (ECons h _, q') => eroot h = 6 /\ q' = [5] | _ => False end
  | _ => False end.
Proof. vm_compute. repeat split. Qed.

(* x + 100 fails from 105 on: 4 passes, 6 fails, 5 fails; 7 is computed and never tested *)
Example C70_map_calls_ex :
  gbind (ltransformGen eightGen (noting Called (fun x => x + 100))) (lsearch_t (noting Tested (fun y => y <? 105))) [] =
  Ok (105, [Called 8; Called 4; Called 6; Tested 104; Called 7; Tested 106; Called 5; Tested 105]).
Proof. reflexivity. Qed.
Example C70_map_count_ex :
  descent shrinks (fun x => negb (x + 100 <? 105)) eight [(eight, [4; 6]); (Node 6 [Node 5 []], [5]); (Node 5 [], [])] 5 /\
  flat_map (fun p => firstn (S (length (snd p))) (map root (shrinks (fst p)))) [(eight, [4; 6]); (Node 6 [Node 5 []], [5]); (Node 5 [], [])]
  = [4; 6; 7; 5].
Proof.
  split; [|reflexivity].
  apply (descent_down shrinks _ eight [Node 4 [Node 2 []; Node 3 []]] (Node 6 [Node 5 []]) [Node 7 []]); auto.
  apply (descent_down shrinks _ _ [] (Node 5 []) []); auto. apply (descent_stop shrinks _ (Node 5 [])). constructor.
Qed.

(* odd numbers rejected: 7 has nothing to offer *)
Example C70_filter_calls_ex :
  gbind (lfilterGen 1%nat eightGen (noting Called (fun x => Z.even x))) (lsearch_t (noting Tested (fun y => y <? 5))) [] =
  Ok (6, [Called 8; Called 8; Called 4; Called 4; Called 6; Called 6; Tested 4; Called 7; Tested 6; Called 5]).
Proof. reflexivity. Qed.
(* 4 is rejected: its first shrink comes in its place *)
Example C70_filter_calls_ex2 :
  gbind (lfilterGen 1%nat eightGen (noting Called (fun x => negb (x =? 4)))) (lsearch_t (noting Tested (fun y => y <? 5))) [] =
  Ok (5, [Called 8; Called 8; Called 4; Called 2; Called 2; Called 6; Called 6; Tested 2; Called 7; Called 7; Tested 6;
          Called 5; Called 5; Tested 5]).
Proof. reflexivity. Qed.
Example C70_filter_plain_calls_ex :
  gbind (lfilter (noting Called (fun x => negb (x =? 4))) (elift eight)) (lsearch_t (noting Tested (fun y => y <? 5))) [] =
  Ok (5, [Called 8; Called 4; Called 6; Called 6; Called 7; Called 7; Tested 6; Called 5; Called 5; Tested 5]).
Proof. reflexivity. Qed.

(* 7 is never tested, but a transformer that throws on it aborts the search *)
Example C70_map_throws_ex : forall r : rst (journal Z Z),
  gbind (ltransformGen eightGen (raising (fun x => if x =? 7 then inr ERuntime else inl (x + 100))))
        (lsearch_t (fun y => gret (negb (negb (y <? 105))))) r = Throw ERuntime.
Proof. reflexivity. Qed.
Example C70_map_throws_ex2 : forall r : rst (journal Z Z),
  gbind (ltransformGen eightGen (raising (fun x => if x =? 2 then inr ERuntime else inl (x + 100))))
        (lsearch_t (fun y => gret (negb (negb (y <? 105))))) r = Ok (105, r).
Proof. reflexivity. Qed.

(* a criteria accepting every other call *)
Example C70_filter_unsteady_ex :
  lfilterGen 5%nat (@eightGen (journal Z Z)) (fun a log => Ok (Nat.even (length log), log ++ [Called a])) [] = Throw EInvalidArgument.
Proof. reflexivity. Qed.

(* the hypotheses of the pure theorems: a transformer, and an extension *)
Example C70_pure_maps_ex : forall E a, yields (@eflatMap E Z Z (fun a => gret (elift (Node a [Node 0 []]))) (elift eight))
  (flatMap_tree (fun a => Node a [Node 0 []]) eight) /\ @denotes E Z (elift (Node a [])) (Node a []).
Proof.
  intros E a. split; [|apply denotes_elift]. apply (C70_pure_maps E Z (elift eight) eight (denotes_elift E Z eight)).
  intros b r. eexists. split; [reflexivity|]. apply denotes_elift.
Qed.
Example C70_pure_filters_ex :
  filter_tree Z.even eight = Ok (Node 8 [Node 4 [Node 2 []]; Node 6 []]) /\
  filter_tol 20%nat (fun x => negb (x =? 4)) 1 eight = Ok (Node 8 [Node 2 []; Node 6 [Node 5 []]; Node 7 []]).
Proof. split; reflexivity. Qed.
Example C70_pure_extensions_ex : forall E, denotes (@lconcatStatic E Z (gret (ECons (emake 1) (gret ENil))) (elift (Node 3 [Node 2 []])))
  (Node 3 [Node 2 [Node 1 []]; Node 1 []]).
Proof.
  intros E. apply (proj2 (C70_pure_extensions E Z _ (Node 3 [Node 2 []]) (denotes_elift E Z _)) (gret (ECons (emake 1) (gret ENil))) [Node 1 []]).
  intros r. eexists. split; [reflexivity|].
  apply (denotes_cons E Z _ _ (Node 1 []) []); [exact (denotes_elift E Z (Node 1 []))|]. apply denotes_g_ret. reflexivity.
Qed.
Example C70_pure_search_ex : forall E r, lsearch_t (fun a => gret (a <? 5)) (@elift E Z eight) r = Ok (5, r).
Proof. reflexivity. Qed.
Example C70_map_fusion_ex :
  gbind (lmap (noting Called (fun x => x + 1)) (elift eight)) (lmap (noting Called (fun x => x * 2))) [] =
  Ok (ENode 18 (gbind (gbind (eshrinks (elift eight)) (lmap_s (noting Called (fun x => x + 1)))) (lmap_s (noting Called (fun x => x * 2)))),
      [Called 8; Called 9 : event Z Z]).
Proof. reflexivity. Qed.

Print Assumptions C70_pure_maps.
Print Assumptions C70_pure_filters.
Print Assumptions C70_pure_extensions.
Print Assumptions C70_pure_search.
Print Assumptions C70_map_calls.
Print Assumptions C70_map_count.
Print Assumptions C70_filter_calls.
Print Assumptions C70_filter_plain_calls.
Print Assumptions C70_map_fusion.
Print Assumptions C70_map_throws.
Print Assumptions C70_filter_unsteady.
Print Assumptions C70_filter_plain_unsteady.
