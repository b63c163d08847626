(** Proofs about the search for a simplest failing list. *)
From Coq Require Import List ZArith Lia Bool Arith Permutation.
From Verif Require Import Base TreeModel TreeSpec TreeProof BinSearchModel BinSearchSpec BinSearchProof
  ListModel ListSpec ListProof ListShapeProof ListBulkProof ListMainProof StringModel StringProof SearchSpec SearchProof ListSearchSpec.
Import ListNotations.
Local Open Scope nat_scope.

Lemma scan_concat_list : forall A (fails : A -> Prop) thn L tried found, scan fails L tried found ->
  forall cs more, L = map (concat_tree thn) cs ++ more ->
  exists tr1 fo1 tr2 fo2, scan fails cs tr1 fo1 /\ scan fails (match fo1 with Some u => thn u | None => more end) tr2 fo2 /\
    tried = tr1 ++ tr2 /\ forall t, root (ending (concat_tree thn t) found) = root (ending (ending t fo1) fo2).
Proof.
  intros A fails thn L tried found H. induction H as [|c cs0 tried found Hp Hs IH|c cs0 tried found Hf Hs IH]; intros [|d cs] more E; simpl in E.
  - subst more. exists [], None, [], None. split; [constructor|]. split; [constructor|]. split; auto. intros t. apply root_concat.
  - discriminate.
  - subst more. exists [], None, (root c :: tried), found. split; [constructor|]. split; [apply scan_pass; auto|]. split; auto.
    intros t. destruct found as [u|]; simpl; auto. apply root_concat.
  - inversion E; subst. destruct (IH cs more eq_refl) as [tr1 [fo1 [tr2 [fo2 [S1 [S2 [S3 S4]]]]]]].
    rewrite root_concat in *. exists (root d :: tr1), fo1, tr2, fo2. split; [apply scan_pass; auto|]. split; auto. split; [rewrite S3; auto|auto].
  - subst more. exists [], None, (root c :: tried), (Some (match found with Some u => u | None => c end)).
    split; [constructor|]. split; [apply scan_fail; auto|]. split; auto.
  - inversion E; subst. destruct (IH (shrinks d) (thn d) (shrinks_concat _ _ _)) as [tr1 [fo1 [tr2 [fo2 [S1 [S2 [S3 S4]]]]]]].
    rewrite root_concat in *. exists (root d :: tr1), (Some (ending d fo1)), tr2, fo2. split; [apply scan_fail; auto|].
    split; [destruct fo1; auto|]. split; [rewrite S3; auto|]. intros t. specialize (S4 d). destruct found; simpl in *; auto.
Qed.

Lemma scan_concat : forall A (fails : A -> Prop) thn t tried found, scan fails (shrinks (concat_tree thn t)) tried found ->
  exists tr1 fo1 tr2 fo2, scan fails (shrinks t) tr1 fo1 /\ scan fails (thn (ending t fo1)) tr2 fo2 /\
    tried = tr1 ++ tr2 /\ root (ending (concat_tree thn t) found) = root (ending (ending t fo1) fo2).
Proof.
  intros A fails thn t tried found H. rewrite shrinks_concat in H.
  destruct (scan_concat_list _ _ _ _ _ _ H _ _ eq_refl) as [tr1 [fo1 [tr2 [fo2 [S1 [S2 [S3 S4]]]]]]].
  exists tr1, fo1, tr2, fo2. split; auto. split; [destruct fo1; auto|]. auto.
Qed.

Lemma shrinks_andThen : forall A thn (t : tree A), shrinks (andThen thn t) = match shrinks t with [] => thn t | ts => map (andThen thn) ts end.
Proof. intros A thn [a [|c ts]]; reflexivity. Qed.
Lemma root_andThen' : forall A thn (t : tree A), root (andThen thn t) = root t.
Proof. intros A thn [a [|c ts]]; reflexivity. Qed.

Lemma scan_andThen : forall A (fails : A -> Prop) thn t tried found, scan fails (shrinks (andThen thn t)) tried found ->
  exists tr1 fo1 tr2 fo2, scan fails (shrinks t) tr1 fo1 /\
    scan fails (match shrinks (ending t fo1) with [] => thn (ending t fo1) | _ => [] end) tr2 fo2 /\
    tried = tr1 ++ tr2 /\ root (ending (andThen thn t) found) = root (ending (ending t fo1) fo2).
Proof.
  intros A fails thn.
  assert (L : forall L tried found, scan fails L tried found -> forall cs, L = map (andThen thn) cs ->
    exists tr1 fo1 tr2 fo2, scan fails cs tr1 fo1 /\ 
      scan fails (match fo1 with Some u => match shrinks u with [] => thn u | _ => [] end | None => [] end) tr2 fo2 /\ tried = tr1 ++ tr2 /\ 
      (fo1 = None -> fo2 = None /\ found = None) /\ (forall u, fo1 = Some u -> exists w, found = Some w /\ root w = root (ending u fo2))).
  { intros L tried found H. induction H as [|c cs0 tried found Hp Hs IH|c cs0 tried found Hf Hs IH]; intros [|d cs] E; simpl in E; try discriminate.
    - exists [], None, [], None. split; [constructor|]. split; [constructor|]. split; auto. split; auto. discriminate.
    - inversion E; subst. destruct (IH cs eq_refl) as [tr1 [fo1 [tr2 [fo2 [S1 [S2 [S3 [S4 S5]]]]]]]].
      rewrite root_andThen' in *. exists (root d :: tr1), fo1, tr2, fo2. split; [apply scan_pass; auto|]. split; auto. split; [rewrite S3; auto|auto].
    - inversion E; subst. rewrite shrinks_andThen in *. rewrite root_andThen' in *. destruct (shrinks d) as [|e es] eqn:Ed.
      + exists [root d], (Some d), tried, found. split; [change [root d] with (root d :: []); apply (scan_fail fails d cs [] None); auto; rewrite Ed; constructor|].
        rewrite Ed. split; auto. split; auto. split; [discriminate|]. intros u Hu. inversion Hu; subst. eexists. split; [reflexivity|].
        destruct found; simpl; auto. apply root_andThen'.
      + destruct (IH (e :: es) eq_refl) as [tr1 [fo1 [tr2 [fo2 [S1 [S2 [S3 [S4 S5]]]]]]]].
        exists (root d :: tr1), (Some (ending d fo1)), tr2, fo2. split; [apply scan_fail; auto; rewrite Ed; auto|].
        split; [destruct fo1 as [u|]; simpl; auto; rewrite Ed; destruct (S4 eq_refl) as [-> _]; inversion S2; subst; constructor|].
        split; [rewrite S3; auto|]. split; [discriminate|]. intros u Hu. inversion Hu; subst. eexists. split; [reflexivity|].
        destruct fo1 as [u|]; simpl.
        * destruct (S5 u eq_refl) as [w [-> Hw]]. auto.
        * destruct (S4 eq_refl) as [-> ->]. simpl. apply root_andThen'. }
  intros t tried found H. rewrite shrinks_andThen in H. destruct (shrinks t) as [|e es] eqn:Et.
  - exists [], None, tried, found. split; [constructor|]. simpl. rewrite Et. split; auto. split; auto. destruct found; simpl; auto. apply root_andThen'.
  - destruct (L _ _ _ H (e :: es) eq_refl) as [tr1 [fo1 [tr2 [fo2 [S1 [S2 [S3 [S4 S5]]]]]]]].
    exists tr1, fo1, tr2, fo2. split; auto. destruct fo1 as [u|]; simpl.
    + split; auto. split; auto. destruct (S5 u eq_refl) as [w [-> Hw]]. auto.
    + destruct (S4 eq_refl) as [-> ->]. rewrite Et. split; [inversion S2; constructor|]. split; auto. simpl. apply root_andThen'.
Qed.

Lemma scan_reach : forall A (fails : A -> Prop) cs tried found, scan fails cs tried found -> forall t, shrinks t = cs -> reach t (ending t found).
Proof.
  assert (L : forall A (fails : A -> Prop) cs tried found, scan fails cs tried found -> match found with None => True | Some u => exists c, In c cs /\ reach c u end).
  { intros A fails cs tried found H. induction H as [|c cs tried found Hp Hs IH|c cs tried found Hf Hs IH]; simpl; auto.
    - destruct found as [u|]; auto. destruct IH as [d [Hd Hr]]. exists d. split; [right; auto|auto].
    - destruct found as [u|].
      + destruct IH as [d [Hd Hr]]. exists c. split; [left; auto|]. eapply reach_step; eauto.
      + exists c. split; [left; auto|apply reach_refl]. }
  intros A fails cs tried found H t E. apply L in H. destruct found as [u|]; simpl; [|apply reach_refl].
  destruct H as [c [Hc Hr]]. eapply reach_step; eauto. rewrite E. auto.
Qed.

Lemma scan_fails : forall A (fails : A -> Prop) cs tried found, scan fails cs tried found -> forall t, fails (root t) -> fails (root (ending t found)).
Proof.
  intros A fails cs tr fo Hs. induction Hs as [|c cs tr fo Hp Hs IH|c cs tr fo Hf Hs IH]; intros d Hd; auto. apply (IH c Hf).
Qed.

(* membership: bisection of the front, then one more element of the rear fixed *)
Lemma pm_scan : forall X (fails : list X -> Prop) fuel (F R : list X) m tried found,
  (size (F ++ R) <= INT64_MAX)%Z -> m <= length (F ++ R) -> length F < fuel ->
  scan fails (shrinks (pm fuel (F ++ R) m (length R))) tried found ->
  let e := root (ending (pm fuel (F ++ R) m (length R)) found) in
  In e (sublists (F ++ R)) /\ length R <= length e /\ m <= length e /\
  (forall k, (Z.of_nat (length F) <= 2 ^ Z.of_nat k)%Z -> length tried <= S k * S (length e - length R)) /\
  (fails (F ++ R) -> stays_failing fails m (F ++ R) ->
   (forall R1 x R2 s, R = R1 ++ x :: R2 -> In s (sublists F) -> m <= length (s ++ R1 ++ R2) -> ~ fails (s ++ R1 ++ R2)) ->
   minimal_list fails m e).
Proof.
  intros X fails. induction fuel as [|f IH]; intros F R m tried found Hs Hm Hf H e; [lia|].
  unfold size, INT64_MAX in Hs. rewrite app_length in Hs, Hm.
  unfold e. clear e. rewrite pm_S in *. set (mf := m - length R) in *. set (d := length F - mf) in *.
  apply scan_concat in H. destruct H as [tr1 [fo1 [tr2 [fo2 [S1 [S2 [S3 S4]]]]]]]. rewrite S4. clear S4.
  rewrite shrinks_map in S1. pose proof S1 as S1'. apply scan_map in S1. destruct S1 as [trz [foz [B [E1 E2]]]].
  subst fo1. rewrite ending_map in S2 |- *. rewrite root_map in S2. set (ez := ending (bs_abs (Z.of_nat d)) foz) in *.
  assert (Hz : (0 <= root ez <= Z.of_nat d)%Z).
  { pose proof (scan_reach _ _ _ _ _ B _ eq_refl) as Hr. apply reach_root_in in Hr. apply bs_abs_in in Hr; auto. unfold UINT64_MAX, d. lia. }
  assert (Hd : d + mf <= length F) by (unfold d, mf; lia).
  set (k := Z.to_nat (root ez) + mf) in *. assert (Hk : k <= length F) by (unfold k; lia).
  assert (Hroot : forall fo, root (ending (map_tree (fun z => firstn (Z.to_nat z + mf) (F ++ R) ++ R) ez) fo) = root (ending (Node (firstn k F ++ R) []) fo)).
  { intros [u|]; simpl; auto. rewrite root_map. fold k. rewrite firstn_prefix by auto. auto. }
  rewrite Hroot. rewrite firstn_prefix in S2 by auto.
  assert (Hlen : length (firstn k F ++ R) = k + length R) by (rewrite app_length, firstn_length; lia).
  assert (Hsub : In (firstn k F ++ R) (sublists (F ++ R))) by (apply sublists_app; [apply firstn_sublist|apply sublists_self]).
  assert (Htr1 : forall q, (Z.of_nat (length F) <= 2 ^ Z.of_nat q)%Z -> length tr1 <= S q).
  { intros q Hq. rewrite E1, map_length. eapply bs_tries; [exact B|]. unfold d. lia. }
  assert (Hbis : fails (F ++ R) -> stays_failing fails m (F ++ R) ->
    fails (firstn k F ++ R) /\ forall j, mf <= j < k -> ~ fails (firstn j F ++ R)).
  { intros Hfr Hst. destruct (bs_finds _ _ _ _ B) as [_ [G2 G3]].
    - unfold UINT64_MAX, d. lia.
    - cbv beta. rewrite firstn_prefix by lia. replace (Z.to_nat (Z.of_nat d) + mf) with (length F) by (unfold d, mf; lia). rewrite firstn_all. auto.
    - intros x y Hxy Hy. cbv beta. rewrite !firstn_prefix by lia. apply Hst.
      + apply sublists_app; [apply firstn_sublist|apply sublists_self].
      + apply sublists_app; [apply firstn_le_sub; lia|apply sublists_self].
      + rewrite app_length, firstn_length. unfold mf in *. lia.
    - cbv beta in G2, G3. fold ez in G2, G3. rewrite firstn_prefix in G2 by (fold k; auto). fold k in G2. split; auto.
      intros j Hj. specialize (G3 (Z.of_nat (j - mf))). rewrite firstn_prefix in G3 by lia.
      replace (Z.to_nat (Z.of_nat (j - mf)) + mf) with j in G3 by lia. apply G3. unfold k in Hj. lia. }
  unfold pm_ext in S2. rewrite Hlen in S2.
  destruct (Nat.leb_spec (k + length R) m) as [Hlm|Hlm].
  { cbn [orb] in S2. inversion S2; subst. cbn [ending root]. rewrite Hlen. assert (m <= k + length R) by (unfold k, mf in *; lia). split; auto. split; [lia|]. split; [lia|]. split.
    - intros q Hq. rewrite app_nil_r. specialize (Htr1 q Hq). nia.
    - intros _ _ _. left. lia. }
  destruct (Nat.leb_spec (k + length R) (length R)) as [Hlr|Hlr].
  { cbn [orb] in S2. inversion S2; subst. cbn [ending root]. rewrite Hlen. split; auto. split; [lia|]. split; [lia|]. split.
    - intros q Hq. rewrite app_nil_r. specialize (Htr1 q Hq). nia.
    - intros _ _ Hn. right. assert (k = 0) by lia. rewrite H. simpl. intros a x b Ex. pose proof (Hn a x b [] Ex (sublists_nil _ _)) as C. simpl in C. apply C.
      apply (f_equal (@length X)) in Ex. rewrite app_length in *. simpl in Ex. unfold k in *. lia. }
  cbn [orb] in S2. destruct k as [|j] eqn:Ek; [lia|]. destruct (nth_error F j) as [x|] eqn:Ex; [|apply nth_error_None in Ex; lia].
  rewrite (firstn_S_nth _ _ _ _ Ex), <- app_assoc in *. cbn [app] in *.
  assert (HF' : length (firstn j F) = j) by (rewrite firstn_length; lia).
  assert (IH' := IH (firstn j F) (x :: R) m tr2 fo2). cbn [length] in IH'.
  assert (Hroot2 : root (ending (pm f (firstn j F ++ x :: R) m (S (length R))) fo2) = root (ending (Node (firstn j F ++ x :: R) []) fo2)).
  { destruct fo2; simpl; auto. apply pm_root; rewrite app_length; simpl; lia. }
  rewrite <- Hroot2. destruct IH' as [I1 [I2 [I3 [I4 I5]]]]; auto.
  { unfold size, INT64_MAX. rewrite app_length. simpl. lia. } { rewrite app_length. simpl. lia. } { lia. }
  set (e := root (ending (pm f (firstn j F ++ x :: R) m (S (length R))) fo2)) in *.
  split; [eapply sublists_trans; eauto|]. split; [lia|]. split; auto. split.
  - intros q Hq. rewrite S3, app_length. specialize (Htr1 q Hq). specialize (I4 q ltac:(lia)).
    replace (S (length e - length R)) with (S (S (length e - S (length R)))) by lia. nia.
  - intros Hfr Hst Hn. destruct (Hbis Hfr Hst) as [G1 G2]. apply I5; auto.
    + intros a b Hb Ha Hl. apply Hst; auto. eapply sublists_trans; eauto.
    + intros R1 y R2 s ER Hsb Hl Hfs. destruct R1 as [|z R1]; simpl in ER; inversion ER; subst.
      * simpl in *. apply (G2 j).
        { rewrite app_length in Hl. apply sublists_len in Hsb. unfold mf. lia. }
        apply (Hst (s ++ R2) (firstn j F ++ R2)); auto.
        { apply sublists_app; [apply firstn_sublist|apply sublists_self]. }
        { apply sublists_app; [auto|apply sublists_self]. }
      * apply (Hn R1 y R2 (s ++ [z]) eq_refl); rewrite <- ?app_assoc; auto.
        eapply sublists_trans; [|apply firstn_sublist with (k := S j)]. rewrite (firstn_S_nth _ _ _ _ Ex). apply sublists_app; auto. left. auto.
Qed.

Lemma mtree_scan : forall X (fails : list X -> Prop) (l : list X) m tried found,
  (size l <= INT64_MAX)%Z -> m <= length l -> scan fails (shrinks (mtree l m)) tried found ->
  let e := root (ending (mtree l m) found) in
  In e (sublists l) /\ m <= length e /\
  (forall k, (Z.of_nat (length l) <= 2 ^ Z.of_nat k)%Z -> length tried <= S k * S (length e)) /\
  (fails l -> stays_failing fails m l -> minimal_list fails m e).
Proof.
  intros X fails l m tried found Hs Hm H. pose proof (pm_scan X fails (S (length l)) l [] m tried found) as C.
  rewrite app_nil_r in C. cbn [length] in C. cbv zeta in C. destruct C as [C1 [_ [C3 [C4 C5]]]]; auto.
  cbv zeta. unfold mtree in *. split; auto. split; auto. split; [intros k Hk; specialize (C4 k Hk); rewrite Nat.sub_0_r in C4; auto|].
  intros Hf Hst. apply C5; auto. intros R1 x R2 s E. destruct R1; discriminate.
Qed.

Lemma stays_failing_map : forall X Y (g : X -> Y) fails m l, stays_failing fails m (map g l) -> stays_failing (fun a => fails (map g a)) m l.
Proof.
  intros X Y g fails m l H a b Hb Ha Hl Hf. apply (H (map g a) (map g b)); auto; try (rewrite sublists_map; apply in_map; auto).
  rewrite map_length. auto.
Qed.

Lemma map_split : forall X Y (g : X -> Y) l a x b, map g l = a ++ x :: b -> exists a' x' b', l = a' ++ x' :: b' /\ a = map g a' /\ x = g x' /\ b = map g b'.
Proof.
  intros X Y g. induction l as [|y l IH]; intros [|z a] x b H; simpl in H; inversion H; subst.
  - exists [], y, l. auto.
  - destruct (IH _ _ _ H2) as [a' [x' [b' [-> [-> [-> ->]]]]]]. exists (y :: a'), x', b'. auto.
Qed.

Lemma minimal_map : forall X Y (g : X -> Y) fails m l, minimal_list (fun a => fails (map g a)) m l -> minimal_list fails m (map g l).
Proof.
  intros X Y g fails m l [H|H]; [left; rewrite map_length; auto|right]. intros a x b E. apply map_split in E.
  destruct E as [a' [x' [b' [-> [-> [-> ->]]]]]]. rewrite <- map_app. apply (H a' x' b' eq_refl).
Qed.

(* vectors *)
Lemma vec_scan : forall A (fails : list A -> Prop) (vec : list (tree A)) m t tried found,
  (size vec <= INT64_MAX)%Z -> m <= length vec -> shrinkListLike vec (Z.of_nat m) true = Ok t -> scan fails (shrinks t) tried found ->
  exists us rs, In us (sublists vec) /\ m <= length us /\ Forall2 (fun e e' => reach e e') us rs /\ root (ending t found) = map root rs /\
    (fails (map root vec) -> stays_failing fails m (map root vec) -> fails (map root us) /\ minimal_list fails m (map root us)).
Proof.
  intros A fails vec m t tried found Hs Hm Ht H. rewrite listlike_ok in Ht by auto. inversion Ht; subst t. clear Ht.
  rewrite shrinks_map in H. apply scan_map in H. destruct H as [tr [fo [S1 [-> ->]]]]. rewrite ending_map, root_map.
  unfold etree in *. apply scan_andThen in S1. destruct S1 as [tr1 [fo1 [tr2 [fo2 [S1 [S2 [S3 S4]]]]]]].
  pose proof (mtree_scan _ _ _ _ _ _ Hs Hm S1) as [M1 [M2 [_ M4]]]. cbv zeta in M4.
  set (u := ending (mtree vec m) fo1) in *. rewrite S4. exists (root u), (root (ending u fo2)). split; auto. split; auto. split.
  - assert (Hself : forall l : list (tree A), Forall2 (fun e e' => reach e e') l l) by (induction l; constructor; auto; apply reach_refl).
    destruct fo2 as [w|]; simpl; auto. destruct (shrinks u) as [|c cs] eqn:Eu; [|inversion S2].
    pose proof (scan_reach _ _ _ _ _ S2 (Node (root u) (pb (root u))) eq_refl) as Hr. simpl in Hr.
    inversion Hr as [|t0 c s Hc Hr']; subst; simpl; auto. simpl in Hc.
    destruct (pb_nodes _ _ _ _ Hc Hr') as [_ [_ [_ H3]]]. auto.
  - split; auto. intros Hf Hst. split.
    + apply (scan_fails _ _ _ _ _ S1 (mtree vec m)). rewrite mtree_root; auto.
    + apply minimal_map. apply M4; auto. apply stays_failing_map. auto.
Qed.

(* sets *)
Lemma set_tree : forall A (lt : A -> A -> bool) cont m, strict_order lt -> ascending lt (map root cont) ->
  (size cont <= INT64_MAX)%Z -> m <= length cont -> shrinkContainer lt cont (Z.of_nat m) = Ok (mtree (map root cont) m).
Proof.
  intros A lt cont m Hso Ha Hs Hm. unfold shrinkContainer. rewrite membership_ok by auto. cbn [bind].
  rewrite flatMap_is_map. rewrite mtree_natural. f_equal. apply map_tree_ext.
  intros v Hv. apply (Permutation_in _ (mtree_values _ _ _ Hs Hm)) in Hv. unfold sublists_min in Hv.
  apply filter_In in Hv. destruct Hv as [Hv _]. cbn [root make_shrinkable].
  unfold make_shrinkable. cbn [root]. rewrite fold_insert; auto. simpl. eapply ascending_sub; [exact Ha|].
  rewrite sublists_map. apply in_map. auto.
Qed.

(* prefixes *)
Definition prefixTree {X} (m : nat) (l : list X) : tree (list X) :=
  map_tree (fun z => firstn (Z.to_nat z + m) l) (bs_abs (Z.of_nat (length l - m))).

Lemma prefixTree_root : forall X m (l : list X), m <= length l -> root (prefixTree m l) = l.
Proof. intros. unfold prefixTree. rewrite root_map, bs_abs_root. apply firstn_all2. lia. Qed.

Lemma prefix_scan : forall X (fails : list X -> Prop) m (l : list X) tried found, m <= length l -> (size l <= UINT64_MAX)%Z ->
  scan fails (shrinks (prefixTree m l)) tried found ->
  let e := root (ending (prefixTree m l) found) in
  (exists k, e = firstn k l /\ m <= k <= length l) /\
  (forall k, (Z.of_nat (length l - m) <= 2 ^ Z.of_nat k)%Z -> length tried <= S k) /\
  (fails l -> prefixes_stay_failing fails m l -> shortest_prefix fails m l e).
Proof.
  intros X fails m l tried found Hm Hs H e. unfold e. clear e. unfold prefixTree in *. rewrite shrinks_map in H. apply scan_map in H.
  destruct H as [tr [fo [B [-> ->]]]]. rewrite ending_map, root_map. unfold size in Hs. set (d := length l - m) in *.
  assert (Hz : (0 <= root (ending (bs_abs (Z.of_nat d)) fo) <= Z.of_nat d)%Z).
  { pose proof (scan_reach _ _ _ _ _ B _ eq_refl) as Hr. apply reach_root_in in Hr. apply bs_abs_in in Hr; auto. unfold d. lia. }
  set (z := root (ending (bs_abs (Z.of_nat d)) fo)) in *.
  split; [exists (Z.to_nat z + m); split; auto; unfold d in *; lia|]. split.
  - intros k Hk. rewrite map_length. eapply bs_tries; [exact B|]. lia.
  - intros Hf Hst. destruct (bs_finds _ _ _ _ B) as [_ [G2 G3]].
    + unfold d. lia.
    + cbv beta. rewrite firstn_all2 by (unfold d; lia). auto.
    + intros x y Hxy Hy. cbv beta. apply Hst; unfold d in *; lia.
    + cbv beta in G2, G3. fold z in G2, G3. exists (Z.to_nat z + m). split; auto. split; [unfold d in *; lia|]. split; auto.
      intros j Hj. specialize (G3 (Z.of_nat (j - m))). replace (Z.to_nat (Z.of_nat (j - m)) + m) with j in G3 by lia. apply G3. lia.
Qed.

(* maps *)
Lemma map_tree_prefix : forall K V (lt : K -> K -> bool) (es : list (tree K * tree V)) m, strict_order lt ->
  ascending lt (map (fun e => root (fst e)) es) -> (size es <= INT64_MAX)%Z -> m <= length es ->
  shrinkMap lt es (Z.of_nat m) = Ok (prefixTree m (map entry es)).
Proof.
  intros K V lt es m Hso Ha Hs Hm. unfold shrinkMap, size in *.
  rewrite (wrapU_small 64) by (unfold INT64_MAX in *; lia).
  rewrite sizeRange_ok by (unfold INT64_MAX in *; lia). cbn [bind].
  replace (Z.of_nat (length es) - Z.of_nat m)%Z with (Z.of_nat (length es - m)) by lia.
  unfold prefixTree. rewrite map_length. set (d := length es - m). rewrite !flatMap_is_map.
  rewrite !map_tree_comp. f_equal. apply map_tree_ext. intros z Hz. apply bs_abs_in in Hz; [|unfold UINT64_MAX, INT64_MAX, d in *; lia].
  assert (E : root (if (z + Z.of_nat m =? 0)%Z then make_shrinkable [] else make_shrinkable (map_prefix es (z + Z.of_nat m)))
              = firstn (Z.to_nat (z + Z.of_nat m)) es).
  { destruct (Z.eqb_spec (z + Z.of_nat m) 0) as [E|E]; [rewrite E; auto|reflexivity]. }
  rewrite E. unfold make_shrinkable at 1. cbn [root]. rewrite fold_map_insert; auto.
  - simpl. rewrite firstn_map. f_equal. f_equal. lia.
  - simpl. rewrite map_map. eapply ascending_sub; [exact Ha|].
    rewrite sublists_map. apply in_map. apply firstn_sublist.
Qed.

(* strings *)
Lemma skipn_sublist : forall X (l : list X) k, In (skipn k l) (sublists l).
Proof. induction l as [|x l IH]; intros [|k]; simpl; auto; apply in_or_app; [left; apply in_map; apply (IH 0)|right; auto]. Qed.

Lemma skipn_twice : forall X (l : list X) a b, skipn (a + b) l = skipn b (skipn a l).
Proof. induction l as [|x l IH]; intros [|a] b; simpl; auto. destruct b; auto. Qed.

Lemma scan_found : forall A (fails : A -> Prop) cs tried u, scan fails cs tried (Some u) -> fails (root u).
Proof.
  intros A fails cs tried u H. remember (Some u) as o eqn:E. revert u E.
  induction H as [|c cs tried found Hp Hs IH|c cs tried found Hf Hs IH]; intros u E; [discriminate|auto|].
  inversion E; subst. destruct found as [w|]; auto.
Qed.

Lemma str_scan : forall X (fails : list X -> Prop) m (s : list X) tried found, m <= length s -> (size s <= UINT64_MAX)%Z ->
  scan fails (shrinks (strT m s)) tried found ->
  let e := root (ending (strT m s) found) in
  (forall k, (Z.of_nat (length s - m) <= 2 ^ Z.of_nat k)%Z -> length tried <= 2 * S k) /\
  (fails s -> m = 0 -> exists k, k <= length s /\ e = firstn k s) /\
  (fails s -> m = 0 -> prefixes_stay_failing fails m s -> shortest_prefix fails m s e) /\
  (fails s -> stays_failing fails 0 s -> exists p, shortest_prefix fails m s p /\
    (e = p \/ e = skipn m p) /\ (m < length p -> fails (skipn m p) -> e = skipn m p)).
Proof.
  intros X fails m s tried found Hm Hs H e. unfold e. clear e. unfold strT in *. apply scan_concat in H.
  destruct H as [tr1 [fo1 [tr2 [fo2 [S1 [S2 [S3 S4]]]]]]]. rewrite S4. clear S4. fold (prefixTree m s) in *.
  pose proof (prefix_scan _ _ _ _ _ _ Hm Hs S1) as [[k [P1 P1']] [P2 P3]]. cbv zeta in P3.
  assert (Hpf : fails s -> fails (root (ending (prefixTree m s) fo1))).
  { intros Hf. apply (scan_fails _ _ _ _ _ S1). rewrite prefixTree_root; auto. }
  set (u := ending (prefixTree m s) fo1) in *. set (p := root u) in *.
  assert (Hp : length p = k) by (rewrite P1, firstn_length; lia).
  assert (He : root (ending u fo2) = match fo2 with Some w => root w | None => p end) by (destruct fo2; auto).
  rewrite He. unfold fronts in S2. rewrite Hp in *.
  assert (Hpre : stays_failing fails 0 s -> prefixes_stay_failing fails m s).
  { intros Hst j q Hj Hq Hl. apply Hst; [apply firstn_sublist|apply firstn_le_sub; auto|lia]. }
  destruct (Nat.eqb_spec k m) as [E|E].
  - inversion S2; subst tr2 fo2. rewrite app_nil_r in S3. subst tr1.
    split; [intros q Hq; specialize (P2 q Hq); lia|]. split; [intros _ _; exists k; split; [lia|auto]|].
    split; [auto|]. intros Hf Hst. exists p. split; auto. split; auto. lia.
  - apply scan_map in S2. destruct S2 as [trz [foz [B [E1 E2]]]].
    assert (Hd : (0 < Z.of_nat (k - m))%Z) by lia.
    assert (Htr2 : forall q, (Z.of_nat (length s - m) <= 2 ^ Z.of_nat q)%Z -> length tr2 <= S q).
    { intros q Hq. rewrite E1, map_length. eapply bs_tries; [exact B|]. lia. }
    split; [intros q Hq; specialize (P2 q Hq); specialize (Htr2 q Hq); rewrite S3, app_length; lia|].
    assert (Hfirst : (fails (skipn m p) -> exists w, fo2 = Some w /\ root w = skipn m p) /\
                     (~ fails (skipn m p) -> stays_failing fails 0 s -> fo2 = None)).
    { unfold bs_abs in B. destruct (Z.eqb_spec (Z.of_nat (k - m)) 0); [lia|]. cbn [shrinks] in B.
      inversion B as [|c cs tr fo Hpass Hs' Ec Et Ef|c cs tr fo Hfail Hs' Ec Et Ef]; subst c cs; cbn [root shrinks] in *.
      - change (Z.to_nat 0) with 0 in Hpass. rewrite Nat.add_0_r in Hpass. split; [intros C; contradiction|].
        intros _ Hst. subst fo. destruct foz as [w|]; [|rewrite E2; auto]. apply scan_found in Hs'. exfalso. apply Hpass.
        apply (Hst _ (skipn m p)) in Hs'; auto; [| |lia].
        + eapply sublists_trans; [apply skipn_sublist|]. rewrite P1. apply firstn_sublist.
        + rewrite skipn_twice. apply skipn_sublist.
      - change (Z.to_nat 0) with 0 in Hfail. rewrite Nat.add_0_r in Hfail. inversion Hs'; subst. split.
        + intros _. eexists. split; [reflexivity|]. cbn. rewrite Nat.add_0_r. auto.
        + intros C. contradiction. }
    destruct Hfirst as [F1 F2].
    assert (Hm0 : fails s -> m = 0 -> match fo2 with Some w => root w | None => p end = p).
    { intros Hf ->. destruct (F1 (Hpf Hf)) as [w [-> Hw]]. rewrite Hw. reflexivity. }
    split; [intros Hf Hz; rewrite (Hm0 Hf Hz); exists k; split; [lia|auto]|].
    split; [intros Hf Hz Hst; rewrite (Hm0 Hf Hz); auto|].
    intros Hf Hst. exists p. split; auto. split.
    + destruct fo2 as [w|]; [|auto]. right. 
      assert (D : ~ ~ fails (skipn m p)) by (intros C; specialize (F2 C Hst); discriminate).
      unfold bs_abs in B. destruct (Z.eqb_spec (Z.of_nat (k - m)) 0); [lia|]. cbn [shrinks] in B.
      inversion B as [|c cs tr fo Hpass Hs' Ec Et Ef|c cs tr fo Hfail Hs' Ec Et Ef]; subst c cs; cbn [root shrinks] in *.
      * exfalso. apply D. change (Z.to_nat 0) with 0 in Hpass. rewrite Nat.add_0_r in Hpass. auto.
      * destruct F1 as [w' [Ew Hw]]; [change (Z.to_nat 0) with 0 in Hfail; rewrite Nat.add_0_r in Hfail; auto|]. inversion Ew; subst. auto.
    + intros _ Hsk. destruct (F1 Hsk) as [w [-> Hw]]. auto.
Qed.
