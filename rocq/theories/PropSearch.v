(** The search for a simplest failing argument: what is tried, what is found (C66). *)
From Coq Require Import String List ZArith Lia Bool Permutation.
From Verif Require Import Base TreeModel TreeSpec TreeProof RandomModel TupleModel TupleProof ContainerProof IntegralModel IntegralSpec IntegralProof
  EffModel EffSpec EffProof ContextModel ContextSpec ContextProof RunnerModel RunnerSpec RunnerProof RunnerPureProof RunnerShrinkProof
  SearchSpec SearchProof PropRun.
Import ListNotations.
Local Open Scope list_scope.

(** * C66: shrinking is the greedy search, and on integers it finds the boundary *)

(** An argument that is an integer of type [ty] in [min,max], embedded in the type of arguments by [inj]. *)
Definition intArg {E V} (inj : Z -> V) (ty : ity) (min max : Z) : xgen E V :=
  gbind (generateInteger ty min max) (fun t => gret (inl (elift (map_tree inj t)))).

Lemma intArg_ok : forall E V (inj : Z -> V) ty min max (r : rst E) x r', intArg inj ty min max r = Ok (inl x, r') ->
  exists t, generateInteger ty min max r = Ok (t, r') /\ x = elift (map_tree inj t).
Proof. intros E V inj ty min max r x r' H. apply gbind_ok in H. destruct H as [t [r1 [H1 H2]]]. inversion H2; subst. eauto. Qed.

(** While shrinking, the property is called exactly on the tuples of the greedy search: for each position, in the order the positions are shrunk,
    with the positions done before at their final values and the others at their initial ones.  This holds for each position whose shrinks do not use the
    engine, whatever the other arguments are. *)
Theorem C66_search : forall E V W ev (P : property E V W) beh s rep s' ts r1, pure_property P beh -> order (length (gens P)) (ord_each ev) ->
  evalTuple (ord_regen ev) (gens P) (rnd s) = Ok (inl ts, r1) -> shrink ev P s = Ok (rep, s') ->
  exists logs, length logs = length (gens P) /\ lg s' = lg s ++ calls beh (concat logs) /\
  forall o1 N o2 t, ord_each ev = o1 ++ N :: o2 -> nth_error ts N = Some (elift t) ->
    let base a := set_nth N a (partly o1 (simplest_args rep) (with_args rep)) in
    exists tried found, scan (fun a => bad beh (base a)) (shrinks t) tried found /\
      nth_error (with_args rep) N = Some (root t) /\ nth_error (simplest_args rep) N = Some (root (ending t found)) /\
      nth_error logs (length o1) = Some (map base tried).
Proof.
  intros E V W ev P beh s rep s' ts r1 HP Ho Hr H.
  pose proof (shrink_inv _ _ _ _ _ _ _ _ H) as [ts0 [r2 [streams [r3 [ts' [H1 [H2 [H3 [H4 H5]]]]]]]]].
  assert (ts0 = ts) by congruence. subst ts0.
  assert (Hlen : length ts = length (gens P)) by (eapply evalTuple_length; eauto).
  destruct (streams_linked _ _ _ _ _ _ _ H2) as [_ Hl].
  assert (Hlk : forall N, In N (ord_each ev) -> linked_to streams ts N) by (intros N HN; apply Hl; apply (order_in _ _ Ho) in HN; lia).
  destruct (shrinkEach_pure _ _ _ _ _ HP _ _ _ _ _ _ H3 (order_nodup _ _ Ho) Hlk) as [I1 _].
  destruct (shrinkEach_scan _ _ _ _ _ HP _ _ _ _ _ _ H3 (order_nodup _ _ Ho) Hlk) as [logs [G1 [G2 G3]]].
  exists logs. split; [rewrite G1; apply Permutation_length in Ho; rewrite seq_length in Ho; auto|]. split; [exact G2|].
  intros o1 N o2 t Ho1 Ht base. destruct (G3 o1 N o2 t Ho1 Ht) as [tried [found [S1 [S2 S3]]]].
  assert (Hb : map eroot (partly o1 ts' ts) = partly o1 (simplest_args rep) (with_args rep)) by (rewrite H4, H5; apply map_partly; auto).
  rewrite Hb in *. exists tried, found. split; auto. split; [rewrite H4, nth_error_map, Ht; simpl; f_equal; apply elift_root|].
  split; auto. rewrite H5, nth_error_map, S2. simpl. f_equal. apply elift_root.
Qed.

(** An integer argument takes at most k + 1 calls when its range is no wider than 2^k, whatever the property does: at most 65 in all.
    With only such arguments the whole of shrinking takes at most the sum of these. *)
Theorem C66_calls : forall E V W ev (P : property E V W) beh s rep s' ks, pure_property P beh -> order (length (gens P)) (ord_each ev) ->
  Forall2 (fun g k => exists (inj : Z -> V) ty min max, usable ty min max /\ (max - min <= 2 ^ Z.of_nat k)%Z /\ g = intArg inj ty min max) (gens P) ks ->
  shrink ev P s = Ok (rep, s') -> exists l, lg s' = lg s ++ calls beh l /\ (length l <= list_sum (map S ks))%nat.
Proof.
  intros E V W ev P beh s rep s' ks HP Ho Hg H.
  pose proof (shrink_inv _ _ _ _ _ _ _ _ H) as [ts [r2 [_ [_ [_ [H1 _]]]]]].
  destruct (C66_search _ _ _ _ _ _ _ _ _ _ _ HP Ho H1 H) as [logs [L1 [L2 L3]]]. exists (concat logs). split; auto.
  destruct (evalTuple_ok _ _ _ _ _ _ _ H1) as [_ Hev].
  assert (Hlen : length ts = length (gens P)) by (eapply evalTuple_length; eauto).
  assert (Hks : length ks = length (gens P)) by (clear -Hg; induction Hg; simpl; auto).
  assert (Hb : forall o1 N o2, ord_each ev = o1 ++ N :: o2 -> exists lo k, nth_error logs (length o1) = Some lo /\ nth_error ks N = Some k /\ (length lo <= S k)%nat).
  { intros o1 N o2 E1. assert (HN : (N < length (gens P))%nat) by (apply (order_in _ _ Ho); rewrite E1; apply in_or_app; right; left; auto).
    destruct (nth_error ts N) as [x|] eqn:Ex; [|apply nth_error_None in Ex; lia].
    destruct (Hev N x Ex) as [f [q [q' [F1 F2]]]]. destruct (nth_error ks N) as [k|] eqn:Ek; [|apply nth_error_None in Ek; lia].
    assert (Hgk : exists (inj : Z -> V) ty min max, usable ty min max /\ (max - min <= 2 ^ Z.of_nat k)%Z /\ f = intArg inj ty min max).
    { clear -Hg F1 Ek. revert ks Hg N F1 Ek. induction (gens P) as [|g gs IH]; intros ks Hg [|N] F1 Ek; simpl in F1; try discriminate; inversion Hg; subst; simpl in *; [|eauto].
      inversion F1; subst. inversion Ek; subst. auto. }
    destruct Hgk as [inj [ty [min [max [U [Hk ->]]]]]]. destruct (intArg_ok _ _ _ _ _ _ _ _ _ F2) as [t [T1 ->]].
    destruct (L3 o1 N o2 _ E1 Ex) as [tried [found [S1 [_ [_ S4]]]]]. exists (map (fun a => set_nth N a (partly o1 (simplest_args rep) (with_args rep))) tried), k.
    split; auto. split; auto. rewrite map_length. rewrite shrinks_map in S1. apply scan_map in S1. destruct S1 as [tr [fo [S1 [-> ->]]]]. rewrite map_length.
    destruct (integer_scan _ _ _ _ _ _ _ _ _ _ U T1 S1) as [Hc _]. auto. }
  rewrite (list_sum_perm (map S ks) (map (fun N => match nth_error ks N with Some k => S k | None => 0%nat end) (ord_each ev))).
  2:{ eapply Permutation_trans; [|apply Permutation_map, Permutation_sym; exact Ho]. rewrite <- Hks. match goal with |- Permutation ?a ?b => replace b with a; [apply Permutation_refl|] end. apply nth_error_ext. intros i. rewrite !nth_error_map, nth_seq.
      destruct (i <? length ks)%nat eqn:Ei; simpl.
      - apply Nat.ltb_lt in Ei. destruct (nth_error ks i) eqn:E2; auto. apply nth_error_None in E2. lia.
      - apply Nat.ltb_ge in Ei. destruct (nth_error ks i) eqn:E2; auto. apply nth_error_lt in E2. lia. }
  assert (Hlo : length logs = length (ord_each ev)) by (rewrite L1; apply Permutation_length in Ho; rewrite seq_length in Ho; auto).
  clear -Hb Hlo. revert logs Hb Hlo. induction (ord_each ev) as [|N o IH]; intros [|lo logs] Hb Hlo; simpl in Hlo; try discriminate; simpl; [lia|].
  rewrite app_length. destruct (Hb [] N o eq_refl) as [lo' [k [B1 [B2 B3]]]]. simpl in B1. inversion B1; subst lo'. rewrite B2.
  apply Nat.add_le_mono; [exact B3|]. apply IH; [|lia]. intros o1 M o2 Eo. apply (Hb (N :: o1) M o2). rewrite Eo. auto.
Qed.

(** The value reported for an integer argument fails; and if, with the arguments shrunk before it at their reported values and the later ones at their original values,
    failing is monotone from the element of the range nearest zero to the original value, then it is exactly the boundary: nothing nearer zero fails. *)
Theorem C66_boundary : forall E V W fuel ev (P : property E V W) beh w n why rep s' (inj : Z -> V) ty min max o1 N o2,
  pure_property P beh -> quiet (gens P) -> no_leak beh -> ord_regen ev = ord_call ev -> order (length (gens P)) (ord_each ev) ->
  usable ty min max -> nth_error (gens P) N = Some (intArg inj ty min max) -> ord_each ev = o1 ++ N :: o2 ->
  runForAll fuel ev P w = Ok (VFalsified n why rep, s') ->
  exists v k, nth_error (with_args rep) N = Some (inj v) /\ nth_error (simplest_args rep) N = Some (inj k) /\ (min <= v <= max)%Z /\
    let fails x := bad beh (set_nth N (inj x) (partly o1 (simplest_args rep) (with_args rep))) in
    fails k /\ (monotone fails (nearest_zero min max) v -> boundary fails (nearest_zero min max) v k).
Proof.
  intros E V W fuel ev P beh w n why rep s' inj ty min max o1 N o2 HP Hq Hnl Ho Hoe HU HgN Ho1 H.
  pose proof (C33_replay_fails _ _ _ _ _ _ _ _ _ _ _ _ HP Hq Hnl Ho H) as Hj.
  apply runLoop_ok in H. destruct H as [ks [s0 [s1 [_ [_ [_ [_ [_ Hs]]]]]]]].
  pose proof (shrink_inv _ _ _ _ _ _ _ _ Hs) as [ts [r2 [streams [r3 [ts' [H1 [H2 [H3 [H4 H5]]]]]]]]].
  assert (Hbad : bad beh (with_args rep)).
  { unfold judge, bad in *. destruct (snd (beh (with_args rep))) as [b|e]; [|left; discriminate].
    destruct (failed_expectations (fst (beh (with_args rep)))); [|right; discriminate]. destruct b; [discriminate|left; discriminate]. }
  assert (Hlen : length ts = length (gens P)) by (eapply evalTuple_length; eauto).
  destruct (streams_linked _ _ _ _ _ _ _ H2) as [_ Hl].
  assert (Hlk : forall M, In M (ord_each ev) -> linked_to streams ts M) by (intros M HM; apply Hl; apply (order_in _ _ Hoe) in HM; lia).
  destruct (shrinkEach_pure _ _ _ _ _ HP _ _ _ _ _ _ H3 (order_nodup _ _ Hoe) Hlk) as [I1 _].
  assert (Hst : bad beh (partly o1 (simplest_args rep) (with_args rep))).
  { rewrite H4, H5, <- map_partly by auto. rewrite Ho1 in H3. eapply stage_bad; eauto; rewrite <- ?Ho1; auto.
    - eapply order_nodup; eauto.
    - intros i. rewrite Hlen. apply order_in. auto.
    - rewrite <- H4. auto. }
  destruct (C66_search _ _ _ _ _ _ _ _ _ _ _ HP Hoe H1 Hs) as [logs [_ [_ L3]]].
  assert (HN : (N < length (gens P))%nat) by (eapply nth_error_lt; eauto).
  destruct (nth_error ts N) as [x|] eqn:Ex; [|apply nth_error_None in Ex; lia].
  destruct (evalTuple_ok _ _ _ _ _ _ _ H1) as [_ Hev]. destruct (Hev N x Ex) as [f [q [q' [F1 F2]]]].
  assert (Hff : Some f = Some (intArg inj ty min max)) by (transitivity (nth_error (gens P) N); [symmetry; exact F1|exact HgN]). inversion Hff; subst f. destruct (intArg_ok _ _ _ _ _ _ _ _ _ F2) as [t [T1 ->]].
  destruct (L3 o1 N o2 _ Ho1 Ex) as [tried [found [S1 [S2 [S3 _]]]]].
  rewrite shrinks_map in S1. apply scan_map in S1. destruct S1 as [tr [fo [S1 [-> ->]]]]. rewrite ending_map, !root_map in *.
  exists (root t), (root (ending t fo)). split; auto. split; auto.
  destruct (generateInteger_ok E ty min max q) as [t2 [q2 [T2 G2]]]; try apply HU. assert (t2 = t) by congruence. subst t2.
  split; [apply (gi_range _ _ _ G2)|]. intros fails.
  assert (Hbase : fails (root t)).
  { unfold fails. rewrite set_nth_same; auto. rewrite H4, H5 in *. rewrite partly_nth by (rewrite !map_length; auto).
    destruct (existsb (Nat.eqb N) o1) eqn:Ein; auto. exfalso. apply existsb_in in Ein.
    pose proof (order_nodup _ _ Hoe) as Hnd. rewrite Ho1 in Hnd. eapply NoDup_app_not; [exact Hnd| |exact Ein]. left. auto. }
  destruct (integer_scan _ _ _ _ _ _ _ _ _ _ HU T1 S1) as [_ Hbd]. split; [|intros Hm; apply Hbd; auto].
  assert (Hscan : forall cs (d : tree Z) tr fo, scan fails cs tr fo -> fails (root d) -> fails (root (ending d fo))).
  { clear. intros cs d tr fo Hs. revert d. induction Hs as [|c cs tr fo Hp Hs IH|c cs tr fo Hf Hs IH]; intros d Hd; auto. apply (IH c Hf). }
  eapply Hscan; eauto.
Qed.

(** One integer argument: forAll reports the failing value nearest zero among those up to the one it drew, when failing is monotone. *)
Theorem C66_one : forall E V W fuel ev (P : property E V W) beh w n why rep s' (inj : Z -> V) ty min max,
  pure_property P beh -> no_leak beh -> order 1 (ord_call ev) -> order 1 (ord_regen ev) -> order 1 (ord_each ev) ->
  usable ty min max -> gens P = [intArg inj ty min max] ->
  (forall x y, (min <= x <= max)%Z -> (min <= y <= max)%Z -> nearer (nearest_zero min max) x y -> bad beh [inj x] -> bad beh [inj y]) ->
  runForAll fuel ev P w = Ok (VFalsified n why rep, s') ->
  exists k, simplest_args rep = [inj k] /\ (min <= k <= max)%Z /\ bad beh [inj k] /\
    forall x, (min <= x <= max)%Z -> (Z.abs (x - nearest_zero min max) < Z.abs (k - nearest_zero min max))%Z -> ~ bad beh [inj x].
Proof.
  intros E V W fuel ev P beh w n why rep s' inj ty min max HP Hnl Ho1 Ho2 Ho3 HU Hg Hmono H.
  assert (Hone : forall o, order 1 o -> o = [0%nat]) by (intros o Hx; apply Permutation_sym in Hx; apply Permutation_length_1_inv in Hx; auto).
  assert (Hq : quiet (gens P)).
  { rewrite Hg. constructor; [|constructor]. intros r e r' He. apply gbind_ok in He. destruct He as [x [r1 [_ He]]]. discriminate. }
  assert (Hoe : order (length (gens P)) (ord_each ev)) by (rewrite Hg; auto).
  pose proof (C66_boundary E V W fuel ev P beh w n why rep s' inj ty min max [] 0%nat [] HP Hq Hnl) as C.
  destruct C as [v [k [A1 [A2 [A3 [A4 A5]]]]]]; eauto.
  { rewrite (Hone _ Ho1), (Hone _ Ho2). auto. } { rewrite Hg. auto. }
  apply runLoop_ok in H. destruct H as [ks [s0 [s1 [_ [_ [_ [_ [_ Hs]]]]]]]].
  pose proof (shrink_inv _ _ _ _ _ _ _ _ Hs) as [ts [r2 [streams [r3 [ts' [H1 [H2 [H3 [H4 H5]]]]]]]]].
  assert (Hlen : length ts = 1%nat) by (apply evalTuple_length in H1; rewrite Hg in H1; auto).
  destruct (streams_linked _ _ _ _ _ _ _ H2) as [_ Hl].
  destruct (shrinkEach_pure _ _ _ _ _ HP _ _ _ _ _ _ H3 (order_nodup _ _ Hoe)) as [I1 _].
  { intros M HM; apply Hl; apply (order_in _ _ Hoe) in HM; rewrite Hg in HM; simpl in HM; lia. }
  assert (Hw : with_args rep = [inj v]).
  { rewrite H4 in *. destruct ts as [|a [|? ?]]; simpl in Hlen; try lia. simpl in *. congruence. }
  assert (Hsim : simplest_args rep = [inj k]).
  { rewrite H5 in *. rewrite Hlen in I1. destruct ts' as [|a [|? ?]]; simpl in I1; try lia. simpl in *. congruence. }
  assert (Hbase : forall x, set_nth 0 (inj x) (partly [] (simplest_args rep) (with_args rep)) = [inj x]) by (intros; rewrite Hw, Hsim; reflexivity).
  rewrite Hbase in A4. assert (Hin : forall x, on_way (nearest_zero min max) v x -> (min <= x <= max)%Z) by (unfold on_way, nearest_zero; lia).
  destruct A5 as [B1 [_ B2]].
  { intros x y Hx Hy Hn. rewrite !Hbase. apply Hmono; auto. }
  exists k. split; auto. split; [auto|]. split; auto. intros x Hx Hlt Hb.
  destruct (Z_le_gt_dec (Z.abs (x - nearest_zero min max)) (Z.abs (v - nearest_zero min max))) as [Hle|Hgt].
  - (* mirrored into the way to v *)
    set (c := nearest_zero min max) in *.
    set (y := (if (c <=? v)%Z then c + Z.abs (x - c) else c - Z.abs (x - c))%Z).
    assert (Hy : on_way c v y /\ Z.abs (y - c) = Z.abs (x - c)) by (unfold y, on_way; destruct (Z.leb_spec c v); lia).
    destruct Hy as [Hy1 Hy2]. apply (B2 y Hy1); [lia|]. rewrite Hbase. apply (Hmono x y); auto. unfold nearer. lia.
  - unfold on_way in B1. lia.
Qed.

(** Two integers; fails from 10 on in the first one, together with a sum from 100 on. *)
Definition f66 (a : list Z) : list op * ures := match a with [x; y] => ([], URet (negb ((10 <=? x) && (100 <=? x + y)))%Z) | _ => ([], URet false) end.
Definition prop66 : property replay Z unit :=
  {| func := fun a w => (fst (f66 a), snd (f66 a), w); gens := [intArg (fun x => x) TI32 0 200; intArg (fun x => x) TI32 (-200) 200];
     onStartup := None; onCleanup := None; numRuns := 5; maxDurationMs := 0; seed := 1 |}.
Example C66_search_ex : exists rep s', shrink (inOrder 2 []) prop66 (start [90; 150]%Z) = Ok (rep, s') /\ with_args rep = [90; 150]%Z /\ simplest_args rep = [10; 90]%Z /\
  args_of (lg s') = [[0; 150]; [45; 150]; [22; 150]; [11; 150]; [5; 150]; [8; 150]; [9; 150]; [10; 150];
                     [10; 0]; [10; 75]; [10; 112]; [10; 93]; [10; 84]; [10; 88]; [10; 90]; [10; 89]]%Z.
Proof. apply ok_witness. vm_compute. auto. Qed.
Example C66_calls_ex : pure_property prop66 f66 /\ order 2 (ord_each (inOrder 2 [])) /\
  Forall2 (fun g k => exists (inj : Z -> Z) ty min max, usable ty min max /\ (max - min <= 2 ^ Z.of_nat k)%Z /\ g = intArg inj ty min max) (gens prop66) [8; 9]%nat /\
  list_sum (map S [8; 9]%nat) = 19%nat.
Proof.
  split; [split; auto|]. split; [apply Permutation_refl|]. split; [|auto].
  assert (U : forall lo, (tmin TI32 <= lo)%Z -> (lo <= 200)%Z -> usable TI32 lo 200).
  { intros lo H1 H2. split; auto. split; auto. split; [vm_compute; discriminate|]. intros [H _]. discriminate. }
  constructor; [|constructor; [|constructor]].
  - exists (fun x => x), TI32, 0%Z, 200%Z. split; [apply U; vm_compute; discriminate|]. split; [vm_compute; discriminate|auto].
  - exists (fun x => x), TI32, (-200)%Z, 200%Z. split; [apply U; vm_compute; discriminate|]. split; [vm_compute; discriminate|auto].
Qed.
(** The second argument is shrunk last, with 10 in the first place; failing is then monotone and 90 is the boundary. *)
Example C66_boundary_ex : match runForAll 5 (inOrder 2 [1; 2; 90; 150]%Z) prop66 tt with
    | Ok (VFalsified n why rep, s) => n = 2%nat /\ with_args rep = [90; 150]%Z /\ simplest_args rep = [10; 90]%Z | _ => False end /\
  let fails x := bad f66 (set_nth 1 x (partly [0%nat] [10; 90]%Z [90; 150]%Z)) in
  monotone fails (nearest_zero (-200) 200) 150 /\ fails 90%Z /\ ~ fails 89%Z.
Proof.
  split; [vm_compute; auto|]. intros fails.
  assert (Hf : forall x, fails x <-> (90 <= x)%Z).
  { intros x. unfold fails, bad. cbn [partly map combine seq length existsb Nat.eqb fst snd orb set_nth f66 Nat.add]. unfold f66.
    change (10 <=? 10)%Z with true. cbn [andb snd fst]. destruct (Z.leb_spec 100 (10 + x)) as [Hz|Hz]; split; intros H; try lia.
    - left. discriminate. 
    - destruct H as [H|H]; exfalso; apply H; reflexivity. }
  split; [|split; [apply Hf; lia|rewrite Hf; lia]].
  intros x y Hx Hy Hn. rewrite !Hf. unfold on_way, nearer, nearest_zero in *. lia.
Qed.
(** Fails from 37 on; 150 is drawn, 37 reported. *)
Definition f66a (a : list Z) : list op * ures := match a with [x] => ([], URet (x <? 37)%Z) | _ => ([], URet false) end.
Definition prop66a : property replay Z unit :=
  {| func := fun a w => (fst (f66a a), snd (f66a a), w); gens := [intArg (fun x => x) TU8 0 200];
     onStartup := None; onCleanup := None; numRuns := 5; maxDurationMs := 0; seed := 1 |}.
Example C66_one_ex : pure_property prop66a f66a /\ no_leak f66a /\ usable TU8 0 200 /\
  (forall x y, (0 <= x <= 200)%Z -> (0 <= y <= 200)%Z -> nearer (nearest_zero 0 200) x y -> bad f66a [x] -> bad f66a [y]) /\
  match runForAll 5 (inOrder 1 [1; 2; 150]%Z) prop66a tt with
  | Ok (VFalsified n why rep, s) => n = 3%nat /\ simplest_args rep = [37]%Z /\ length (lg s) = 12%nat | _ => False end.
Proof.
  split; [split; auto|]. split; [intros [|x [|y a]] H; exfalso; apply H; reflexivity|].
  split; [split; [|split; [|split]]; try (vm_compute; discriminate); intros [H _]; discriminate|]. split; [|vm_compute; auto].
  assert (Hf : forall x, bad f66a [x] <-> (37 <= x)%Z).
  { intros x. unfold bad, f66a. cbn [snd fst]. destruct (Z.ltb_spec x 37) as [Hz|Hz]; split; intros H; try lia.
    - destruct H as [H|H]; exfalso; apply H; reflexivity.
    - left. discriminate. }
  intros x y Hx Hy Hn. rewrite !Hf. unfold nearer, nearest_zero in *. lia.
Qed.

Print Assumptions C66_search.
Print Assumptions C66_calls.
Print Assumptions C66_boundary.
Print Assumptions C66_one.
