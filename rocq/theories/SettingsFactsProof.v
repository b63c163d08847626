(** Validity of pointers, and what variables give, for C68. *)
From Coq Require Import List ZArith Bool Lia Arith.
From Verif Require Import Base TreeModel TupleModel RandomModel ListModel ContainerModel GenModel SettingsModel SettingsSpec SettingsProof SettingsRunProof BitmapProof.
Import ListNotations.

Section Helpers.
Context {E : engine} {V U : Type} (user : nat -> U -> G E (tree V * U)) (seq : list V -> V) (seq2 : list (V * V) -> V) (lt : V -> V -> bool).
Notation call := (call user seq seq2 lt).
Notation exec := (exec user seq seq2 lt).
Notation run := (run user seq seq2 lt).
Notation observe := (observe user seq seq2 lt).
Notation reachable := (reachable user seq seq2 lt).

Lemma points_mono : forall (P Q : loc -> Prop) (f : fn V U), (forall l, P l -> Q l) -> points P f -> points Q f.
Proof. induction f; simpl; intros H; intuition. Qed.

(** Pointers point to objects. *)
Definition all_point (P : loc -> Prop) (h : heap V U) : Prop := forall l f, nth_error h l = Some (Some f) -> points P f.
Lemma chain_points : forall P vs ss l temps (h : heap V U) l' temps' h', chain vs ss l temps h = Ok (l', temps', h') -> all_point P h -> all_point P h'.
Proof.
  intros P vs. induction ss as [|a r IH]; intros l temps h l' temps' h' H Ha.
  - cbn [chain] in H. inversion H; subst. auto.
  - apply chain_step in H. destruct H as [k [z [g0 [g1 [Hc [[_ [z' [H _]]]|[g [f [g0' [g1' [Hag [Hg [Hk H]]]]]]]]]]]]]; apply IH in H; auto; pose proof (Ha _ _ Hc) as [P0 P1].
    + intros x f Hf. apply setnth_inv in Hf. destruct Hf as [[-> Hf]|[_ Hf]]; [|eauto]. inversion Hf; subst. split; auto.
    + assert (Pf : points P f) by (apply given_some in Hg; destruct Hg as [[c [u [_ ->]]]|[y [v [_ [_ Hg]]]]]; [exact I|eauto]).
      assert (Hc' : points P (FArbi k z g0' g1')) by (simpl; destruct Hk as [[_ [_ [-> ->]]]|[[_ [_ [-> ->]]]|[_ [_ [-> ->]]]]]; auto).
      intros x f0 Hf. destruct (Nat.lt_ge_cases x (length h)) as [L|L].
      * rewrite nth_error_app1 in Hf by (rewrite setnth_len; auto). apply setnth_inv in Hf. destruct Hf as [[-> Hf]|[_ Hf]]; [|eauto]. inversion Hf; subst. auto.
      * rewrite nth_error_app2 in Hf by (rewrite setnth_len; auto). apply nth_error_In in Hf. destruct Hf as [Hf|[]]. inversion Hf; subst. auto.
Qed.
Definition valid (h : heap V U) : Prop := all_point (fun l => l < length h) h.
Lemma all_point_app : forall P (h : heap V U) new, all_point P h -> (forall f, In (Some f) new -> points P f) -> all_point P (h ++ new).
Proof.
  intros P h new Ha Hn l f Hf. destruct (Nat.lt_ge_cases l (length h)) as [L|L]; [rewrite nth_error_app1 in Hf by auto; eauto|].
  rewrite nth_error_app2 in Hf by auto. apply nth_error_In in Hf. auto.
Qed.
Lemma all_point_destroy : forall P ls (h : heap V U), all_point P h -> all_point P (destroy h ls).
Proof.
  intros P ls h Ha l f Hf. destruct (in_dec Nat.eq_dec l ls) as [i|n]; [|rewrite destroy_other in Hf by auto; eauto].
  assert (L : l < length h) by (rewrite <- (destroy_len ls h); apply nth_error_Some; congruence). rewrite (destroy_in _ _ _ i L) in Hf. discriminate.
Qed.
Lemma all_point_mono : forall (P Q : loc -> Prop) (h : heap V U), (forall l, P l -> Q l) -> all_point P h -> all_point Q h.
Proof. intros P Q h H Ha l f Hf. eapply points_mono; [exact H|eauto]. Qed.
Lemma all_point_shape : forall P (h h' : heap V U), shape h' = shape h -> all_point P h -> all_point P h'.
Proof. intros P h h' Hs Ha l f Hf. destruct (shape_some _ _ _ _ _ _ Hs Hf) as [g [G1 G2]]. eapply points_shape; [exact G2|eauto]. Qed.

Ltac unbind H :=
  match type of H with
  | bind ?X _ = _ => let Q := fresh "Q" in destruct X eqn:Q; try discriminate; cbn [bind] in H
  end.

Lemma exec_valid : forall fuel c q q', located q -> valid (hp q) -> exec fuel c q = Ok q' -> valid (hp q').
Proof.
  intros fuel c q q' HL HV H.
  assert (HG : forall g f, given (vars q) (hp q) g = Ok f -> points (fun l => l < length (hp q)) f).
  { intros g f Hg. apply given_some in Hg. destruct Hg as [[c0 [u [_ ->]]]|[y [v [_ [_ Hg]]]]]; [exact I|eauto]. }
  assert (HC : forall y ss l l' temps h', varLoc (vars q) y = Ok l -> chain (vars q) ss l [] (hp q) = Ok (l', temps, h') -> all_point (fun x => x < length (hp q)) h' /\ length (hp q) <= length h' /\ l' < length h').
  { intros y ss l l' temps h' Hy Hc. pose proof (varLoc_located _ _ _ HL Hy) as Ha. destruct (chain_frame _ _ _ _ _ _ _ _ Hc Ha) as [A1 [_ [[nw [B1 [B2 [B3 _]]]] _]]].
    split; [eapply chain_points; eauto|]. split; auto. destruct B3 as [->|B3]; [lia|apply B2 in B3; lia]. }
  assert (HA : forall h' new ls, all_point (fun x => x < length (hp q)) h' -> length (hp q) <= length h' ->
    (forall f, In (Some f) new -> points (fun x => x < length (h' ++ new)) f) -> valid (destroy (h' ++ new) ls)).
  { intros h' new ls A1 A2 A3. apply all_point_destroy. apply all_point_app.
    - eapply all_point_mono; [|exact A1]. intros x Hx. simpl in *. rewrite destroy_len, app_length. lia.
    - rewrite destroy_len. auto. }
  destruct c as [k g0 g1|g|g|y ss|y ss|y ss|y ss d|y ss|y|y r n fails|y|z]; cbn [SettingsModel.exec] in H.
  - unbind H. unbind H. inversion H; subst. apply (HA (hp q) [Some _] []); auto. intros f [Hf|[]]. inversion Hf; subst. simpl. split; [eapply points_mono; [|eauto]; intros x Hx; simpl in Hx; rewrite app_length; lia|].
    destruct k; try (inversion Q0; subst; exact I). eapply points_mono; [|eapply HG; eauto]; intros x Hx; simpl in Hx; rewrite app_length; lia.
  - unbind H. inversion H; subst. apply (HA (hp q) [Some _] []); auto. intros f [Hf|[]]. inversion Hf; subst. eapply points_mono; [|eapply HG; eauto]; intros x Hx; simpl in Hx; rewrite app_length; lia.
  - unbind H. inversion H; subst. apply (HA (hp q) [Some _; Some _] []); auto. intros f [Hf|[Hf|[]]]; inversion Hf; subst.
    + eapply points_mono; [|eapply HG; eauto]; intros x Hx; simpl in Hx; rewrite app_length; lia.
    + simpl. rewrite app_length. simpl. lia.
  - unbind H. unbind H. destruct a0 as [[l' temps] h']. unbind H. inversion H; subst. destruct (HC _ _ _ _ _ _ Q Q0) as [C1 [C2 C3]]. apply objectAt_some in Q1.
    apply HA; auto. intros f [Hf|[]]. inversion Hf; subst. eapply points_mono; [|exact (C1 _ _ Q1)]. intros x Hx; simpl in Hx; rewrite app_length; lia.
  - unbind H. unbind H. destruct a0 as [[l' temps] h']. destruct (HC _ _ _ _ _ _ Q Q0) as [C1 [C2 C3]].
    assert (HD : forall ls, valid (destroy h' ls)) by (intros ls; rewrite <- (app_nil_r h'); apply HA; auto; intros f []).
    destruct (endsInCopy ss); inversion H; subst; simpl; auto.
  - unbind H. unbind H. destruct a0 as [[l' temps] h']. destruct (HC _ _ _ _ _ _ Q Q0) as [C1 [C2 C3]]. inversion H; subst. simpl.
    rewrite <- (app_nil_r h'); apply HA; auto; intros f [].
  - unbind H. unbind H. destruct a0 as [[l' temps] h']. unbind H. inversion H; subst. destruct (HC _ _ _ _ _ _ Q Q0) as [C1 [C2 C3]]. apply objectAt_some in Q1.
    apply HA; auto. intros f [Hf|[Hf|[Hf|[]]]]; inversion Hf; subst.
    + eapply points_mono; [|exact (C1 _ _ Q1)]. intros x Hx; simpl in Hx; rewrite app_length; lia.
    + simpl. rewrite app_length. simpl. lia.
    + simpl. rewrite app_length. simpl. lia.
  - unbind H. unbind H. destruct a0 as [[l' temps] h']. inversion H; subst. destruct (HC _ _ _ _ _ _ Q Q0) as [C1 [C2 C3]].
    apply HA; auto. intros f [Hf|[Hf|[]]]; inversion Hf; subst; simpl; rewrite app_length; simpl; lia.
  - unbind H. unbind H. destruct a0 as [t [r h']]. inversion H; subst. pose proof (inPlace_shape _ (call_shape user seq seq2 lt fuel) _ _ _ _ Q0) as Sh. simpl in *.
    unfold valid. rewrite (shape_len _ _ _ _ Sh). eapply all_point_shape; eauto.
  - unbind H. unbind H. unbind H. destruct a1 as [ts h']. inversion H; subst. pose proof (forAll_shape _ _ _ _ _ _ _ _ _ _ _ _ Q1) as Sh. simpl in *.
    unfold valid. rewrite (shape_len _ _ _ _ Sh). eapply all_point_shape; eauto.
  - destruct (nth_error (vars q) y) as [v|] eqn:Ev; [|discriminate]. inversion H; subst. simpl. destruct (vown v); auto. unfold valid. rewrite setnth_len.
    intros x f Hf. apply setnth_inv in Hf. destruct Hf as [[_ Hf]|[_ Hf]]; [discriminate|eapply HV; eauto].
  - inversion H; subst. auto.
Qed.
Lemma run_valid : forall fuel p q q', located q -> valid (hp q) -> run fuel p q = Ok q' -> valid (hp q').
Proof.
  intros fuel. induction p as [|c p IH]; intros q q' HL HV H; cbn [SettingsModel.run] in H; [inversion H; subst; auto|].
  unbind H. destruct (exec_cells _ _ _ _ _ _ _ _ HL Q) as [_ [_ A]]. eapply IH; [exact A| |exact H]. exact (exec_valid _ _ _ _ HL HV Q).
Qed.
Lemma reachable_ok : forall q, reachable q -> located q /\ valid (hp q).
Proof.
  intros q [fuel [p [r [z H]]]]. assert (L0 : located (begin r z : st E V U)) by (intros v []).
  assert (V0 : valid (hp (begin r z : st E V U))) by (intros l f Hf; destruct l; discriminate).
  destruct (run_vars _ _ _ _ _ _ _ _ L0 H) as [L1 _]. split; auto. eapply run_valid; [exact L0|exact V0|exact H].
Qed.

(** What a variable gives depends on its region. *)
Lemma observe_eq : forall fuel q y r, observe fuel q y r =
  do l <- varLoc (vars q) y; do '(t, (r', h)) <- inPlace (call fuel) l (r, hp q); Ok (t, r').
Proof.
  intros fuel q y r. unfold SettingsSpec.observe. cbn [SettingsModel.exec vars hp rnd]. destruct (varLoc (vars q) y); auto. cbn [bind].
  destruct (inPlace (call fuel) a (r, hp q)) as [[t [r' h]]| | |]; auto.
Qed.
Lemma inPlace_alike : forall (K : loc -> Prop) n l, K l -> sim (alike K) (inPlace (call n) l) (inPlace (call n) l).
Proof.
  intros K n l Hl s1 s2 Hs. pose proof (call_alike user seq seq2 lt K (S n) (FPtr l) Hl s1 s2 Hs) as H. cbn [SettingsModel.call] in H. unfold gbind in H.
  destruct (inPlace (call n) l s1) as [[t1 q1]| | |], (inPlace (call n) l s2) as [[t2 q2]| | |]; simpl in H; try contradiction; simpl; auto.
  destruct H as [H1 H2]. split; auto. congruence.
Qed.
Lemma separate_observe : forall fuel (K : loc -> Prop) d v p q q' fuel' r, located q -> separate K d q -> nth_error (vars q) d = Some v -> K (vloc v) -> unnamed d p -> run fuel p q = Ok q' ->
  observe fuel' q' d r = observe fuel' q d r.
Proof.
  intros fuel K d v p q q' fuel' r HL HS Hv HK Hu H. destruct (run_separate _ _ _ _ _ _ _ _ _ _ HL HS Hu H) as [A1 [A2 _]].
  destruct (run_vars _ _ _ _ _ _ _ _ HL H) as [_ [vs A3]]. rewrite !observe_eq. unfold varLoc. rewrite A3.
  assert (Hd : d < length (vars q)) by (apply nth_error_Some; congruence). rewrite nth_error_app1 by auto. rewrite Hv. cbn [bind].
  pose proof (inPlace_alike K fuel' (vloc v) HK (r, hp q) (r, hp q')) as HI.
  assert (HA : alike K (r, hp q) (r, hp q')) by (split; auto; split; [exact A1|exact (proj1 HS)]). specialize (HI HA).
  destruct (inPlace (call fuel') (vloc v) (r, hp q)) as [[t1 [r1 h1]]| | |], (inPlace (call fuel') (vloc v) (r, hp q')) as [[t2 [r2 h2]]| | |]; simpl in HI; try contradiction; auto; try congruence.
  destruct HI as [-> [HI _]]. simpl in *. congruence.
Qed.

(** Chains. *)
Lemma chain_settled : forall (q : st E V U) l0 vs ss l temps h l' temps' h' f,
  vars q = vs -> chain vs ss l temps h = Ok (l', temps', h') -> nth_error h l = Some (Some f) ->
  (l = l0 \/ length (hp q) <= l) -> length (hp q) <= length h ->
  (forall x, x < length (hp q) -> x <> l0 -> nth_error h x = nth_error (hp q) x) ->
  (forall y v, In y (flat_map namesOf ss) -> nth_error vs y = Some v -> vloc v <> l0 /\ vloc v < length (hp q)) -> ss <> [] ->
  option_map Some (settled q ss f) = nth_error h' l' /\
  option_map Some (settled q (reaching ss) f) = nth_error h' l.
Proof.
  intros q l0 vs. induction ss as [|a r IH]; intros l temps h l' temps' h' f Hvs H Hf Hl Hlen Hag Hn Hne; [congruence|]. clear Hne.
  assert (Hll : l < length h) by (apply nth_error_Some; congruence).
  pose proof (chain_step _ _ _ _ _ _ _ H) as [k [z [g0 [g1 [Hc Hs]]]]]. rewrite Hf in Hc. inversion Hc; subst f.
  destruct Hs as [[Hng [z' [H1 [Z1 Z2]]]]|[g [f [g0' [g1' [Hag' [Hg [Hk H1]]]]]]]].
  - assert (HR : reaching (a :: r) = a :: reaching r) by (destruct a; simpl in *; tauto).
    assert (HS : forall r', settled q (a :: r') (FArbi k z g0 g1) = settled q r' (FArbi k z' g0 g1 : fn V U)).
    { intros r'. unfold settled. cbn [lastGiven]. cbn [lastGiven] in Z1, Z2. rewrite Z1, Z2. destruct a; simpl in Hng; try tauto; destruct k; reflexivity. }
    assert (Hat : nth_error (set_nth l (Some (FArbi k z' g0 g1)) h) l = Some (Some (FArbi k z' g0 g1))) by (eapply setnth_at; exact Hf).
    rewrite HR, !HS. destruct r as [|b r].
    + cbn [chain] in H1. inversion H1; subst. cbn [reaching]. rewrite Hat. unfold settled. cbn [lastGiven]. destruct z', k; auto.
    + apply (IH l temps (set_nth l (Some (FArbi k z' g0 g1)) h) l' temps' h' (FArbi k z' g0 g1)); auto; try discriminate.
      * rewrite setnth_len. auto.
      * intros x Hx Hx0. rewrite setnth_other; auto. destruct Hl; [congruence|lia].
      * intros y v Hy. apply Hn. simpl. apply in_or_app. auto.
  - assert (Hgv : valueOf q g = Some f).
    { apply given_some in Hg. destruct Hg as [[c [u [-> ->]]]|[y [v [-> [V1 V2]]]]]; simpl; auto. unfold objectOf. rewrite Hvs, V1.
      assert (Hin : In y (flat_map namesOf (a :: r))) by (simpl; apply in_or_app; left; destruct Hag' as [->| ->]; left; auto).
      destruct (Hn y v Hin V1) as [N1 N2]. rewrite <- (Hag _ N2 N1), V2. auto. }
    assert (HS : forall r', settled q (a :: r') (FArbi k z g0 g1) = settled q r' (FArbi k z g0' g1' : fn V U)).
    { intros r'. unfold settled. cbn [lastGiven]. destruct Hk as [[-> [-> [-> ->]]]|[[-> [-> [-> ->]]]|[-> [-> [-> ->]]]]]; cbn [givesMin givesMax keyFn elemFn]; rewrite Hgv; reflexivity. }
    assert (HR : reaching (a :: r) = [a]) by (destruct Hag' as [->| ->]; auto).
    set (fa := FArbi k z g0' g1') in *. set (h1 := set_nth l (Some fa) h ++ [Some fa]) in *.
    assert (L1 : length h1 = S (length h)) by (unfold h1; rewrite app_length, setnth_len; simpl; lia).
    assert (N1 : nth_error h1 l = Some (Some fa)) by (unfold h1; rewrite nth_error_app1 by (rewrite setnth_len; auto); eapply setnth_at; exact Hf).
    assert (N2 : nth_error h1 (length h) = Some (Some fa)) by (unfold h1; rewrite nth_error_app2 by (rewrite setnth_len; auto); rewrite setnth_len, Nat.sub_diag; auto).
    assert (Hfa : settled q [] fa = Some fa) by (unfold settled, fa; cbn [lastGiven]; destruct z, k; reflexivity).
    rewrite HR, !HS, Hfa. split.
    + destruct r as [|b r]; [cbn [chain] in H1; inversion H1; subst; rewrite Hfa, N2; auto|].
      refine (proj1 (IH (length h) _ h1 l' temps' h' fa Hvs H1 N2 _ _ _ _ _)); try discriminate; try lia.
      * intros x Hx Hx0. unfold h1. rewrite nth_error_app1 by (rewrite setnth_len; lia). rewrite setnth_other; auto. destruct Hl; [congruence|lia].
      * intros y v Hy. apply Hn. simpl. apply in_or_app. auto.
    + assert (L2 : length h < length h1) by lia. destruct (chain_frame _ _ _ _ _ _ _ _ H1 L2) as [_ [A2 _]]. rewrite A2 by lia. auto.
Qed.

(** Objects that are gone stay gone. *)
Lemma run_dead : forall fuel x p q q', located q -> run fuel p q = Ok q' -> nth_error (hp q) x = Some None -> nth_error (hp q') x = Some None.
Proof.
  intros fuel x. induction p as [|c p IH]; intros q q' HL H Hx; cbn [SettingsModel.run] in H; [inversion H; subst; auto|].
  unbind H. destruct (exec_cells _ _ _ _ _ _ _ _ HL Q) as [[A0 A1] [_ A4]]. apply (IH _ _ A4 H). destruct (A1 _ _ Hx) as [o [O1 O2]]. rewrite O1. destruct o; simpl in O2; auto; contradiction.
Qed.

(** Callables of an object that shares nothing. *)
Lemma heap_ext : forall (h h' : heap V U), (forall l, nth_error h' l = nth_error h l) -> h' = h.
Proof.
  induction h as [|a h IH]; intros h' H.
  - destruct h' as [|b h']; auto. specialize (H 0). discriminate.
  - destruct h' as [|b h']; [specialize (H 0); discriminate|]. pose proof (H 0) as H0. simpl in H0. f_equal; [congruence|]. apply IH. intros l. exact (H (S l)).
Qed.
Lemma owned_any : forall P (f : fn V U), owned f -> points P f.
Proof. intros P. apply owned_points. Qed.
Lemma owned_heap : forall n f (r : rst E) h t f' r' h', owned f -> call n f (r, h) = Ok ((t, f'), (r', h')) -> h' = h /\ owned f'.
Proof.
  intros n f r h t f' r' h' Ho H. split.
  - apply heap_ext. intros l. symmetry.
    assert (Ap : apart (fun _ => True) (snd (r, h))) by (intros x g Hx; exfalso; apply Hx; exact I).
    exact (call_frame user seq seq2 lt (fun _ => True) n f (r, h) t f' (r', h') (owned_any _ _ Ho) Ap H l I).
  - destruct (call_shape _ _ _ _ _ _ _ _ _ _ H) as [A _]. clear -Ho A. revert f' A. induction f; intros f' A; destruct f'; simpl in *; try discriminate; auto; try contradiction.
    inversion A; subst. destruct Ho. split; auto.
Qed.
Lemma owned_call : forall n f (r : rst E) h h2, owned f -> same (fun s1 s2 : rst (ext E (heap V U)) => fst s1 = fst s2) (call n f (r, h)) (call n f (r, h2)).
Proof.
  intros n f r h h2 Ho. assert (HA : alike (fun _ => False) (r, h) (r, h2)) by (split; auto; split; intros x Hx; contradiction).
  pose proof (call_alike user seq seq2 lt (fun _ => False) n f (owned_any _ _ Ho) (r, h) (r, h2) HA) as H.
  destruct (call n f (r, h)) as [[a1 q1]| | |], (call n f (r, h2)) as [[a2 q2]| | |]; simpl in *; auto. destruct H as [H1 [H2 _]]. auto.
Qed.

Lemma owned_inPlace : forall n f (r : rst E) (h1 h2 : heap V U) l1 l2, owned f -> nth_error h1 l1 = Some (Some f) -> nth_error h2 l2 = Some (Some f) ->
  (do '(t, (r', h)) <- inPlace (call n) l1 (r, h1); Ok (t, r')) = (do '(t, (r', h)) <- inPlace (call n) l2 (r, h2); Ok (t, r')).
Proof.
  intros n f r h1 h2 l1 l2 Ho H1 H2. unfold inPlace. cbn [snd]. rewrite H1, H2. pose proof (owned_call n f r h1 h2 Ho) as S0.
  destruct (call n f (r, h1)) as [[[t1 f1] [r1 h1']]| | |], (call n f (r, h2)) as [[[t2 f2] [r2 h2']]| | |]; simpl in S0; try contradiction; cbn [bind]; try congruence.
  destruct S0 as [S1 S2]. simpl in S2. congruence.
Qed.

Lemma owned_call_any : forall n f (r : rst E) h t f' r' h', owned f -> call n f (r, h) = Ok ((t, f'), (r', h')) ->
  h' = h /\ owned f' /\ forall h2, call n f (r, h2) = Ok ((t, f'), (r', h2)).
Proof.
  intros n f r h t f' r' h' Ho H. destruct (owned_heap _ _ _ _ _ _ _ _ Ho H) as [-> Ho']. split; auto. split; auto. intros h2.
  pose proof (owned_call n f r h h2 Ho) as S0. rewrite H in S0. destruct (call n f (r, h2)) as [[[t2 f2] [r2 h2']]| | |] eqn:Ec; simpl in S0; try contradiction.
  destruct (owned_heap _ _ _ _ _ _ _ _ Ho Ec) as [-> _]. destruct S0 as [S1 S2]. simpl in S2. inversion S1; subst. reflexivity.
Qed.
Lemma owned_inputs : forall fuel n f (r : rst E) h ts f' r' h' sv, owned f -> inputs user seq seq2 lt fuel n f (r, h) = Ok (ts, f', (r', h'), sv) ->
  h' = h /\ owned f' /\ forall h2, inputs user seq seq2 lt fuel n f (r, h2) = Ok (ts, f', (r', h2), sv).
Proof.
  intros fuel. induction n as [|n IH]; intros f r h ts f' r' h' sv Ho H; cbn [inputs] in H; [inversion H; subst; auto|].
  destruct (call fuel f (r, h)) as [[[t f1] [r1 h1]]| | |] eqn:Ec; try discriminate. cbn [bind] in H. destruct (owned_call_any _ _ _ _ _ _ _ _ Ho Ec) as [-> [Ho1 Hany]].
  destruct n as [|n].
  - inversion H; subst. split; auto. split; auto. intros h2. cbn [inputs]. rewrite Hany. reflexivity.
  - destruct (inputs user seq seq2 lt fuel (S n) f1 (r1, h)) as [[[[ts2 f2] [r2 h2]] sv2]| | |] eqn:Ei; try discriminate. cbn [bind] in H. inversion H; subst.
    destruct (IH _ _ _ _ _ _ _ _ Ho1 Ei) as [-> [Ho2 Hany2]]. split; auto. split; auto. intros h3.
    cbn [inputs] in Hany2. cbn [inputs]. rewrite Hany. cbn [bind]. rewrite Hany2. reflexivity.
Qed.
Lemma owned_forAll : forall fuel n b f (r : rst E) h ts h', owned f -> forAllInputs user seq seq2 lt fuel n b f r h = Ok (ts, h') ->
  h' = h /\ forall h2, forAllInputs user seq seq2 lt fuel n b f r h2 = Ok (ts, h2).
Proof.
  intros fuel n b f r h ts h' Ho H. unfold forAllInputs in *. destruct (inputs user seq seq2 lt fuel n f (r, h)) as [[[[ts2 f2] [r2 h2]] sv2]| | |] eqn:Ei; try discriminate. cbn [bind] in H.
  destruct (owned_inputs _ _ _ _ _ _ _ _ _ _ Ho Ei) as [-> [Ho2 Hany]]. destruct b.
  - cbn [snd] in H. destruct (call fuel f2 (sv2, h)) as [[[t f3] [r3 h3]]| | |] eqn:Ec; try discriminate. cbn [bind] in H. inversion H; subst.
    destruct (owned_call_any _ _ _ _ _ _ _ _ Ho2 Ec) as [-> [_ Hany2]]. split; auto. intros h4. rewrite Hany. cbn [bind snd]. rewrite Hany2. reflexivity.
  - inversion H; subst. split; auto. intros h4. rewrite Hany. reflexivity.
Qed.

(** Without state. *)
Lemma stateless_call : stateless user -> forall n f (s : rst (ext E (heap V U))) t f' s', call n f s = Ok ((t, f'), s') -> f' = f /\ snd s' = snd s.
Proof.
  intros Hst. induction n as [|n IH]; intros f s t f' s' H; [discriminate|].
  assert (IP : forall l (s : rst (ext E (heap V U))) t s', inPlace (call n) l s = Ok (t, s') -> snd s' = snd s).
  { intros l s0 t0 s0' Hi. unfold inPlace in Hi. destruct (nth_error (snd s0) l) as [[g|]|] eqn:En; try discriminate.
    destruct (call n g s0) as [[[t1 g1] [r1 h1]]| | |] eqn:Ec; try discriminate. cbn [bind] in Hi. inversion Hi; subst. apply IH in Ec. destruct Ec as [-> Ec]. simpl in *. subst h1.
    apply heap_ext. intros x. destruct (Nat.eq_dec x l) as [->|N]; [rewrite (setnth_at _ _ _ _ _ En); auto|rewrite setnth_other; auto]. }
  destruct f as [|c u|k z g0 g1|l|l|l d]; cbn [SettingsModel.call] in H.
  - discriminate.
  - destruct (user c u (fst s)) as [[[t1 u1] r1]| | |] eqn:Eu; try discriminate. cbn [bind] in H. inversion H; subst. apply Hst in Eu. subst. auto.
  - match type of H with bind ?X _ = _ => destruct X as [[t0 [s0 [a b]]]| | |] eqn:Ec; try discriminate end. simpl in H. inversion H; subst. clear H.
    pose (I := fun (h : heap V U) (p : fn V U * fn V U) => h = snd s /\ p = (g0, g1)).
    assert (HI : I (snd s') (a, b)).
    { refine (container_keeps user seq seq2 lt n k z I _ s (g0, g1) t s' (a, b) _ Ec); [|split; simpl; auto].
      intros second s0 [x y] t1 s1 [x1 y1] [J1 J2] J. inversion J2; subst x y. simpl in J. destruct second.
      - destruct (call n g1 s0) as [[[t2 z2] s2]| | |] eqn:E2; try discriminate. simpl in J. inversion J; subst. clear J.
        destruct (IH _ _ _ _ _ E2) as [K1 K2]. split; congruence.
      - destruct (call n g0 s0) as [[[t2 z2] s2]| | |] eqn:E2; try discriminate. simpl in J. inversion J; subst. clear J.
        destruct (IH _ _ _ _ _ E2) as [K1 K2]. split; congruence. }
    destruct HI as [J1 J2]. split; congruence.
  - unfold gbind in H. destruct (inPlace (call n) l s) as [[t1 s1]| | |] eqn:Ei; try discriminate. unfold gret in H. inversion H; subst. apply IP in Ei. auto.
  - unfold gbind in H. destruct (inPlace (call n) l s) as [[t1 s1]| | |] eqn:Ei; try discriminate. unfold gret in H. inversion H; subst. apply IP in Ei. auto.
  - destruct (derive_keeps user seq seq2 lt n l d (fun h => h = snd s)) with (s := s) (t := t) (f' := f') (s' := s') as [-> J]; auto.
    intros s0 t0 s1 J0 J1. rewrite (IP _ _ _ _ J1). auto.
Qed.

Lemma stateless_inputs : stateless user -> forall fuel n f (s : rst (ext E (heap V U))) ts f' s' sv, inputs user seq seq2 lt fuel (S n) f s = Ok (ts, f', s', sv) ->
  f' = f /\ snd s' = snd s /\ exists ts0 t f2 s2, ts = ts0 ++ [t] /\ length ts0 = n /\ call fuel f (sv, snd s) = Ok ((t, f2), s2) /\ snd s2 = snd s.
Proof.
  intros Hst fuel. induction n as [|n IH]; intros f s ts f' s' sv H; cbn [inputs] in H.
  - destruct (call fuel f s) as [[[t f1] s1]| | |] eqn:Ec; try discriminate. inversion H; subst. destruct (stateless_call Hst _ _ _ _ _ _ Ec) as [-> Hs]. split; auto. split; auto.
    exists [], t, f, s'. split; auto. split; auto. split; auto. destruct s. exact Ec.
  - destruct (call fuel f s) as [[[t f1] s1]| | |] eqn:Ec; try discriminate. cbn [bind] in H. destruct (stateless_call Hst _ _ _ _ _ _ Ec) as [-> Hs].
    match type of H with bind ?X _ = _ => destruct X as [[[[ts2 f2] s2] sv2]| | |] eqn:Ei; try discriminate end. cbn [bind] in H. inversion H; subst.
    destruct (IH _ _ _ _ _ _ Ei) as [-> [H1 [ts0 [t0 [f3 [s3 [-> [H3 [H4 H5]]]]]]]]]. split; auto. split; [congruence|]. exists (t :: ts0), t0, f3, s3. rewrite <- Hs. repeat split; auto. simpl. auto.
Qed.

(** Pointers and references. *)
Lemma set_same : forall (h : heap V U) x o, nth_error h x = Some o -> set_nth x o h = h.
Proof. intros h x o H. apply heap_ext. intros l. destruct (Nat.eq_dec l x) as [->|N]; [rewrite (setnth_at _ _ _ _ _ H); auto|rewrite setnth_other; auto]. Qed.
Lemma inPlace_pointer : forall n x f l (r : rst E) h, nth_error h x = Some (Some f) -> (f = FPtr l \/ f = FRef l) -> inPlace (call (S n)) x (r, h) = inPlace (call n) l (r, h).
Proof.
  intros n x f l r h Hx Hf. unfold inPlace at 1. cbn [snd]. rewrite Hx.
  assert (E1 : call (S n) f (r, h) = gbind (inPlace (call n) l) (fun t => gret (t, f)) (r, h)) by (destruct Hf as [->| ->]; reflexivity).
  rewrite E1. unfold gbind. destruct (inPlace (call n) l (r, h)) as [[t [r' h']]| | |] eqn:Ei; try reflexivity. unfold gret. cbn [bind].
  pose proof (inPlace_shape _ (call_shape user seq seq2 lt n) _ _ _ _ Ei) as Sh. cbn [snd] in Sh.
  destruct (shape_some _ _ _ _ _ _ (eq_sym Sh) Hx) as [g [G1 G2]]. apply erase_pointer in G2; [|destruct Hf as [->| ->]; exact I]. subst g. rewrite (set_same _ _ _ G1). auto.
Qed.
Lemma exec_use : forall fuel q y v, nth_error (vars q) y = Some v -> exec fuel (SUse y) q =
  do '(t, (r, h')) <- inPlace (call fuel) (vloc v) (rnd q, hp q);
  Ok {| hp := h'; vars := vars q; defaults := defaults q; rnd := r; out := out q ++ [t] |}.
Proof. intros fuel q y v H. cbn [SettingsModel.exec]. unfold varLoc. rewrite H. reflexivity. Qed.

Lemma use_ok : forall fuel q y v q3, nth_error (vars q) y = Some v -> exec fuel (SUse y) q = Ok q3 ->
  exists t r h, inPlace (call fuel) (vloc v) (rnd q, hp q) = Ok (t, (r, h)) /\ out q3 = out q ++ [t].
Proof.
  intros fuel q y v q3 Hv H. rewrite (exec_use _ _ _ _ Hv) in H. destruct (inPlace (call fuel) (vloc v) (rnd q, hp q)) as [[t [r h]]| | |] eqn:Ei; try discriminate.
  inversion H; subst. exists t, r, h. auto.
Qed.

Lemma inPlace_ok : forall n l g (s : rst (ext E (heap V U))) t s', inPlace (call n) l s = Ok (t, s') -> nth_error (snd s) l = Some (Some g) ->
  exists g' s1, call n g s = Ok ((t, g'), s1).
Proof.
  intros n l g s t s' H Hg. unfold inPlace in H. rewrite Hg in H. destruct (call n g s) as [[[t1 g1] [r1 h1]]| | |]; try discriminate. inversion H; subst. eauto.
Qed.
Lemma call_map_ok : forall n l f (s : rst (ext E (heap V U))) t g' s', call n (FDerive l (DMap f)) s = Ok ((t, g'), s') ->
  exists n' t0 s1, inPlace (call n') l s = Ok (t0, s1) /\ t = map_tree f t0.
Proof.
  intros [|n] l f s t g' s' H; [discriminate|]. cbn [SettingsModel.call] in H. unfold gbind, transformGen, gret in H. unfold gbind in H.
  destruct (inPlace (call n) l s) as [[t0 s0]| | |] eqn:Ei; try discriminate. inversion H; subst. exists n, t0, s'. auto.
Qed.
Lemma call_vector_ok : forall n z a b (s : rst (ext E (heap V U))) t g' s', call n (FArbi KVector z a b) s = Ok ((t, g'), s') ->
  exists n' t0 s1, arbi_vector (member (call n') false) z (s, (a, b)) = Ok (t0, s1) /\ t = map_tree seq t0.
Proof.
  intros [|n] z a b s t g' s' H; [discriminate|]. cbn [SettingsModel.call] in H. unfold container, gbind, transformGen, gret in H. unfold gbind in H.
  destruct (arbi_vector (member (call n) false) z (s, (a, b))) as [[t0 [s0 [a0 b0]]]| | |] eqn:Ei; try discriminate. inversion H; subst. exists n, t0, (s', (a0, b0)). auto.
Qed.

(** Where chains with copies end. *)
Lemma chain_ends : forall vs ss l temps (h : heap V U) l' temps' h', chain vs ss l temps h = Ok (l', temps', h') -> (forall t, In t temps -> t < length h) ->
  (endsInCopy ss = true -> exists tt, temps' = tt ++ [l'] /\ ~ In l' tt) /\ (In l temps \/ Exists setsGenerator ss -> In l' temps').
Proof.
  intros vs. induction ss as [|a r IH]; intros l temps h l' temps' h' H Ht.
  - cbn [chain] in H. inversion H; subst. split; [discriminate|]. intros [J|J]; auto. inversion J.
  - apply chain_step in H. destruct H as [k [z [g0 [g1 [Hc [[Hn [z' [H _]]]|[g [f [g0' [g1' [Hag [Hg [Hk H]]]]]]]]]]]]].
    + destruct (IH _ _ _ _ _ _ H) as [I1 I2]; [intros t J; rewrite setnth_len; auto|]. split.
      * destruct r as [|b r]; [intros J; destruct a; simpl in *; try discriminate; tauto|exact I1].
      * intros [J|J]; [apply I2; auto|]. apply Exists_cons in J. destruct J as [J|J]; [tauto|apply I2; auto].
    + assert (L : length (set_nth l (Some (FArbi k z g0' g1')) h ++ [Some (FArbi k z g0' g1')]) = S (length h)) by (rewrite app_length, setnth_len; simpl; lia).
      destruct (IH _ _ _ _ _ _ H) as [I1 I2]; [intros t J; rewrite L; apply in_app_or in J; destruct J as [J|[<-|[]]]; [apply Ht in J; lia|lia]|]. split.
      * destruct r as [|b r]; [|exact I1]. intros _. cbn [chain] in H. inversion H; subst. exists temps. split; auto. intros J. apply Ht in J. lia.
      * intros _. apply I2. left. apply in_or_app. right. left. auto.
Qed.
Lemma chain_refers : forall vs ss l temps (h : heap V U) l' temps' h', chain vs ss l temps h = Ok (l', temps', h') -> Forall (fun a => ~ setsGenerator a) ss -> l' = l /\ temps' = temps.
Proof.
  intros vs. induction ss as [|a r IH]; intros l temps h l' temps' h' H Hf.
  - cbn [chain] in H. inversion H; subst. auto.
  - inversion Hf; subst. apply chain_step in H. destruct H as [k [z [g0 [g1 [Hc [[Hn [z' [H _]]]|[g [f [g0' [g1' [Hag [Hg [Hk H]]]]]]]]]]]]].
    + eapply IH; eauto.
    + exfalso. destruct Hag as [->| ->]; simpl in *; auto.
Qed.
Lemma objectOf_some : forall (q : st E V U) y f, objectOf q y = Some f -> exists v, nth_error (vars q) y = Some v /\ nth_error (hp q) (vloc v) = Some (Some f).
Proof.
  intros q y f H. unfold objectOf in H. destruct (nth_error (vars q) y) as [v|] eqn:Ev; [|discriminate]. destruct (nth_error (hp q) (vloc v)) as [[g|]|] eqn:En; try discriminate.
  inversion H; subst. eauto.
Qed.
Lemma chain_both : forall (q : st E V U) y v f ss l' temps h', located q -> nth_error (vars q) y = Some v -> nth_error (hp q) (vloc v) = Some (Some f) -> otherSources q y ss -> ss <> [] ->
  chain (vars q) ss (vloc v) [] (hp q) = Ok (l', temps, h') ->
  option_map Some (settled q ss f) = nth_error h' l' /\ option_map Some (settled q (reaching ss) f) = nth_error h' (vloc v).
Proof.
  intros q y v f ss l' temps h' HL Hv Hf Ho Hne H.
  apply (chain_settled q (vloc v) (vars q) ss (vloc v) [] (hp q) l' temps h' f); auto.
  intros y' v' Hy' Hv'. split; [eapply Ho; eauto|]. apply HL. eapply nth_error_In; eauto.
Qed.

(** A region of new objects. *)
Lemma new_separate : forall (q q1 : st E V U) new own (K : loc -> Prop) k, located q -> valid (hp q) ->
  hp q1 = hp q ++ new -> vars q1 = vars q ++ [{| vloc := k; vown := own |}] ->
  (forall l, K l -> length (hp q) <= l < length (hp q1)) ->
  (forall l f, nth_error (hp q1) l = Some (Some f) -> K l -> points K f) ->
  (forall l f, nth_error (hp q1) l = Some (Some f) -> length (hp q) <= l -> K l) -> K k ->
  separate K (length (vars q)) q1.
Proof.
  intros q q1 new own K k HL HV H1 H2 HK HC HN Hk.
  assert (Ap : apart K (hp q1)).
  { intros l f Hl Hf. destruct (Nat.lt_ge_cases l (length (hp q))) as [L|L]; [|exfalso; apply Hl; eapply HN; eauto]. rewrite H1, nth_error_app1 in Hf by auto.
    eapply points_mono; [|exact (HV _ _ Hf)]. intros x Hx J. simpl in Hx. apply HK in J. lia. }
  unfold separate. split; [|split; [exact Ap|split; [|split]]].
  - intros l f Hl Hf. eauto.
  - intros x Hx. apply HK. auto.
  - rewrite H2, app_length. simpl. lia.
  - intros y v Hv J. rewrite H2 in Hv. destruct (Nat.lt_ge_cases y (length (vars q))) as [L|L].
    + rewrite nth_error_app1 in Hv by auto. apply nth_error_In in Hv. apply HL in Hv. apply HK in J. lia.
    + assert (y < length (vars q ++ [{| vloc := k; vown := own |}])) by (apply nth_error_Some; congruence). rewrite app_length in *. simpl in *. lia.
Qed.

Lemma ends_iff : forall ss : list (setter U), endsInCopy ss = true <-> lastSetsGenerator ss.
Proof.
  split.
  - induction ss as [|a r IH]; intros H; [discriminate|]. destruct r as [|b r].
    + exists [], a. split; auto. destruct a; simpl in *; auto; discriminate.
    + destruct (IH H) as [r' [c [H1 H2]]]. exists (a :: r'), c. split; auto. simpl. congruence.
  - intros [r [a [-> Ha]]]. induction r as [|b r IH]; [destruct a; simpl in *; auto; contradiction|]. destruct r; exact IH.
Qed.
Lemma not_ends : forall ss : list (setter U), ~ lastSetsGenerator ss -> endsInCopy ss = false.
Proof. intros ss H. destruct (endsInCopy ss) eqn:Ee; auto. apply ends_iff in Ee. contradiction. Qed.
End Helpers.
