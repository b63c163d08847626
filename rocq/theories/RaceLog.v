(** Proofs about data races, 4: the log entries around an action. *)
From Coq Require Import List ZArith Bool Lia Arith.
From Verif Require Import Base TupleModel ConcModel ConcSpec RaceModel RaceSpec RaceProof RaceHist RaceMore.
Import ListNotations.
Local Open Scope list_scope.

Section Log.
Context {O M : Type} (a : api) (front : list (act O M)) (rears : list (list (act O M))) (check : option (code O M unit)) (obj : O) (model : M).
Notation C := (cfg O M).
Notation H := (list (actor * cfg O M)).
Notation reach := (reach a front rears check obj model).

(** What one step does to the position of a thread. *)
Lemma pc_step : forall h c who evs c' i, reach h c -> move a front check who c = Some (evs, c') ->
  (who <> Rear i /\ pc_of i c' = pc_of i c) \/ (who <> Rear i /\ pc_of i c = PNone /\ pc_of i c' = PBegin) \/
  (who = Rear i /\ pc_of i c <> PEnd /\ (goes a c i (pc_of i c) (pc_of i c') \/ (pc_of i c' = pc_of i c /\ c_status c' <> Running))).
Proof.
  intros h c who evs c' i R E. unfold move in E. destruct (c_status c); try discriminate. destruct who as [|j].
  - destruct (coord_step a front check c evs c' E) as (Hpc & _). destruct (Hpc i) as [Ep|[Ek Ep]]; [left|right; left]; split; auto; try discriminate.
    split; auto. eapply start_j; eauto.
  - destruct (rear_step a c j evs c' E) as (_ & Ne & _ & _ & Hpc & _ & Hg). destruct (Nat.eq_dec j i) as [->|N].
    + right. right. split; auto. split; auto. destruct Hg as [[G _]|(Ep & _ & St)]; auto.
    + left. split; [congruence|]. auto.
Qed.

(** No preconditions in the function-based interface. *)
Lemma no_pre : forall h c, reach h c -> a = Func -> forall i k p, pc_of i c <> PPre k p.
Proof.
  induction 1 as [|h c who evs c' R IH E]; intros Ea i k p Ep.
  - unfold pc_of, start in Ep. cbn in Ep. destruct (nth_error _ i) as [t|] eqn:Et; [|discriminate]. apply nth_error_In in Et. apply in_map_iff in Et. destruct Et as (l & <- & _). discriminate.
  - specialize (IH Ea i). destruct (pc_step _ _ _ _ _ i R E) as [[_ Es]|[(_ & _ & Es)|(_ & _ & [G|[Es _]])]].
    + rewrite Es in Ep. eapply IH; eauto.
    + congruence.
    + rewrite Ep in G. inversion G; subst; [discriminate|]. eapply IH; eauto.
    + rewrite Es in Ep. eapply IH; eauto.
Qed.

(** How far a thread has come. *)
Definition rank (p : pc O M) : nat :=
  match p with
  | PNext k => 6 * k
  | PTake k false => 6 * k + 1
  | PWrite k false _ => 6 * k + 2
  | PPre k _ => 6 * k + 2
  | PBody k _ => 6 * k + 3
  | PTake k true => 6 * k + 4
  | PWrite k true _ => 6 * k + 5
  | _ => 0
  end.
Lemma goes_rank : forall (c : C) i p p', goes a c i p p' -> p' <> PEnd -> rank p <= rank p'.
Proof. intros c i p p' G N. destruct G; cbn; try (destruct l); try lia; tauto. Qed.
Lemma rank_mono : forall h c, reach h c -> forall p i c0, at_ h p (Rear i) c0 -> pc_of i c <> PEnd -> rank (pc_of i c0) <= rank (pc_of i c).
Proof.
  induction 1 as [|h c who evs c' R IH E]; intros p i c0 A Ne.
  - apply at_lt in A. cbn in A. lia.
  - assert (Hh := reach_hist _ _ _ _ _ _ _ _ R).
    destruct (pc_step _ _ _ _ _ i R E) as [[N Es]|[(N & En & Es)|(Ew & Nc & Hg)]].
    + rewrite Es in *. apply at_snoc in A. destruct A as [A|(_ & X & _)]; [eauto|congruence].
    + apply at_snoc in A. destruct A as [A|(_ & X & _)]; [|congruence]. exfalso. apply (hi_none _ _ Hh _ _ _ A). auto.
    + assert (L : rank (pc_of i c) <= rank (pc_of i c')) by (destruct Hg as [G|[-> _]]; auto; eapply goes_rank; eauto).
      apply at_snoc in A. destruct A as [A|(_ & _ & ->)]; auto. specialize (IH _ _ _ A Nc). lia.
Qed.

(** After a step of action k, the end of the action is the next that is logged. *)
Lemma after_body : forall h c, reach h c -> forall p i c0 k x, at_ h p (Rear i) c0 -> pc_of i c0 = PBody k x ->
  (exists y, pc_of i c = PBody k y) \/ pc_of i c = PTake k true \/ (exists p' c1, p < p' /\ at_ h p' (Rear i) c1 /\ pc_of i c1 = PTake k true).
Proof.
  induction 1 as [|h c who evs c' R IH E]; intros p i c0 k x A Ep.
  - apply at_lt in A. cbn in A. lia.
  - assert (Hh := reach_hist _ _ _ _ _ _ _ _ R).
    assert (K : (exists y, pc_of i c = PBody k y) \/ (pc_of i c = PTake k true /\ p < length h) \/ (exists p' c1, p < p' /\ at_ h p' (Rear i) c1 /\ pc_of i c1 = PTake k true)).
    { apply at_snoc in A. destruct A as [A|(_ & _ & ->)]; [|left; eauto]. assert (L := at_lt _ _ _ _ A). destruct (IH _ _ _ _ _ A Ep) as [?|[?|?]]; auto. }
    destruct K as [(y & Ey)|[[Ey L]|(p' & c1 & L & B & Ey)]].
    + destruct (pc_step _ _ _ _ _ i R E) as [[N Es]|[(N & En & Es)|(Ew & Nc & [G|[Es _]])]]; try congruence.
      * left. rewrite Es; eauto.
      * rewrite Ey in G. inversion G; subst; eauto.
      * left. rewrite Es; eauto.
    + destruct (pc_step _ _ _ _ _ i R E) as [[N Es]|[(N & En & Es)|(Ew & Nc & _)]]; try congruence.
      * rewrite Es. auto.
      * right. right. exists (length h), c. split; auto. split; auto. apply at_snoc. subst; auto.
    + right. right. exists p', c1. split; auto. split; auto. apply at_old; auto.
Qed.

(** Before a step of action k its start is the last that was logged (function-based). *)
Lemma before_body : forall h c, reach h c -> a = Func -> forall i k, (exists x, pc_of i c = PBody k x) \/ (exists s, pc_of i c = PWrite k false s) ->
  exists q c0, at_ h q (Rear i) c0 /\ pc_of i c0 = PTake k false /\ forall q1 c1 k1 l1, at_ h q1 (Rear i) c1 -> pc_of i c1 = PTake k1 l1 -> q1 <= q.
Proof.
  induction 1 as [|h c who evs c' R IH E]; intros Ea i k K.
  - assert (P : pc_of i (start obj model rears) = PNone).
    { unfold pc_of, start. cbn. destruct (nth_error _ i) as [t|] eqn:Et; auto. apply nth_error_In in Et. apply in_map_iff in Et. destruct Et as (l & <- & _). auto. }
    rewrite P in K. destruct K as [(x & K)|(s & K)]; discriminate.
  - assert (Old : (exists x, pc_of i c = PBody k x) \/ (exists s, pc_of i c = PWrite k false s) ->
        (who = Rear i -> forall k1 l1, pc_of i c <> PTake k1 l1) ->
        exists q c0, at_ (h ++ [(who, c)]) q (Rear i) c0 /\ pc_of i c0 = PTake k false /\ forall q1 c1 k1 l1, at_ (h ++ [(who, c)]) q1 (Rear i) c1 -> pc_of i c1 = PTake k1 l1 -> q1 <= q).
    { intros K0 Nt. destruct (IH Ea _ _ K0) as (q & c0 & A & Et & Hq). exists q, c0. split; [apply at_old; auto|]. split; auto.
      intros q1 c1 k1 l1 B Eb. apply at_snoc in B. destruct B as [B|(_ & <- & ->)]; [eauto|]. exfalso. eapply Nt; eauto. }
    destruct (pc_step _ _ _ _ _ i R E) as [[N Es]|[(N & En & Es)|(Ew & Nc & [G|[Es _]])]].
    + rewrite Es in K. apply Old; [auto|]. intros X. congruence.
    + rewrite Es in K. destruct K as [(x & K)|(s & K)]; discriminate.
    + assert (Np := no_pre _ _ R Ea i). destruct K as [(x & K)|(s & K)]; rewrite K in G; inversion G; subst.
      * exfalso. eapply Np; eauto.
      * apply Old; [right; eexists; symmetry; eassumption|]. intros _ k1 l1 X. congruence.
      * apply Old; [left; eexists; symmetry; eassumption|]. intros _ k1 l1 X. congruence.
      * exists (length h), c. split; [apply at_snoc; auto|]. split; auto. intros q1 c1 k1 l1 B _. apply at_lt in B. rewrite app_length in B. cbn in B. lia.
    + rewrite Es in K. apply Old; auto. intros _ k1 l1 X. destruct K as [(x & K)|(s & K)]; congruence.
Qed.

(** ** The log as a part of the history *)
Definition taken_by (x : actor * C) : list (nat * nat * bool * nat) :=
  match fst x with Rear i => match pc_of i (snd x) with PTake k l => [(i, k, l, c_counter (snd x))] | _ => [] end | Coord => [] end.
Lemma coord_takes : forall c evs c', stepCoord a front check c = Some (evs, c') -> takes evs = [].
Proof.
  intros c evs c' E. unfold stepCoord in E. destruct (c_co c); try discriminate.
  - destruct (nth_error front k); [destruct a|]; inversion E; subst; auto.
  - destruct c0 as [[|]|e|u nx]; [destruct (nth_error front k)| | |destruct (u (c_obj c) (c_model c))]; inversion E; subst; auto.
  - destruct c0 as [[|]|e|u nx]; [| | |destruct (u (c_obj c) (c_model c))]; inversion E; subst; auto.
  - inversion E; subst; auto.
  - inversion E; subst; auto.
  - destruct (nth_error (c_threads c) i); inversion E; subst; auto.
  - destruct (nth_error (c_threads c) i); inversion E; subst; auto.
  - inversion E; subst; auto.
  - destruct (nth_error (c_threads c) i) as [t|]; [destruct (t_pc t)|]; inversion E; subst; auto.
  - destruct (printing a (length front) c); inversion E; subst; auto.
  - destruct check; inversion E; subst; auto.
  - destruct c0 as [r|e|u nx]; [| |destruct (u (c_obj c) (c_model c))]; inversion E; subst; auto.
Qed.
Lemma rear_takes : forall c i evs c', stepThread a i c = Some (evs, c') -> takes evs = taken_by (Rear i, c).
Proof.
  intros c i evs c' E. unfold stepThread in E. unfold taken_by, pc_of. cbn [fst snd]. destruct (nth_error (c_threads c) i) as [t|]; [|discriminate].
  destruct (t_pc t); try discriminate.
  - inversion E; subst; auto.
  - inversion E; subst; auto.
  - destruct (nth_error (t_acts t) k); inversion E; subst; auto.
  - destruct c0 as [[|]|e|u nx]; [destruct (nth_error (t_acts t) k)| | |]; inversion E; subst; auto.
  - inversion E; subst; auto.
  - destruct (Nat.ltb slot (length (c_log c))); [|inversion E; subst; auto]. destruct last; [inversion E; subst; auto|]. destruct (nth_error (t_acts t) k); inversion E; subst; auto.
  - destruct c0 as [[|]|e|u nx]; inversion E; subst; auto.
Qed.
Lemma history_takes : forall schedule c, takes (fst (run a front check schedule c)) = flat_map taken_by (history a front check schedule c).
Proof.
  induction schedule as [|w r IH]; intros c; cbn [run history]; auto.
  destruct (move a front check w c) as [[evs c']|] eqn:E; auto. specialize (IH c'). destruct (run a front check r c') as [tr c2]. cbn [fst] in *.
  unfold takes in *. rewrite flat_map_app, IH. cbn [flat_map]. f_equal. unfold move in E. destruct (c_status c); try discriminate.
  destruct w; [apply (coord_takes _ _ _ E)|apply (rear_takes _ _ _ _ E)].
Qed.
Lemma flat_before : forall X Y (f : X -> list Y) (l : list X) x y u v, (forall z, length (f z) <= 1) -> flat_map f l = u ++ x :: v -> In y v ->
  exists p q zp zq, p < q /\ nth_error l p = Some zp /\ nth_error l q = Some zq /\ In x (f zp) /\ In y (f zq).
Proof.
  induction l as [|z l IH]; intros x y u v Hf E Hy; cbn in E.
  - destruct u; discriminate.
  - assert (Hz := Hf z). destruct (f z) as [|w [|w2 r]] eqn:Ez; cbn in E, Hz; try lia.
    + destruct (IH _ _ _ _ Hf E Hy) as (p & q & zp & zq & L & ? & ? & ? & ?). exists (S p), (S q), zp, zq. repeat split; auto; lia.
    + destruct u as [|u0 u]; cbn in E; inversion E; subst.
      * apply in_flat_map in Hy. destruct Hy as (zq & Hq & Hy). apply In_nth_error in Hq. destruct Hq as (q & Hq). exists 0, (S q), z, zq. repeat split; auto; try lia. rewrite Ez; cbn; auto.
      * destruct (IH _ _ _ _ Hf H1 Hy) as (p & q & zp & zq & L & ? & ? & ? & ?). exists (S p), (S q), zp, zq. repeat split; auto; lia.
Qed.
Lemma taken_len : forall z, length (taken_by z) <= 1.
Proof. intros [w c]. unfold taken_by. cbn. destruct w; cbn; auto. destruct (pc_of i c); cbn; auto. Qed.
Lemma taken_in : forall (h : H) p w c i k l s, nth_error h p = Some (w, c) -> In (i, k, l, s) (taken_by (w, c)) -> at_ h p (Rear i) c /\ pc_of i c = PTake k l.
Proof.
  intros h p w c i k l s A Hin. unfold taken_by in Hin. cbn in Hin. destruct w as [|j]; [destruct Hin|].
  destruct (pc_of j c) eqn:E; cbn in Hin; try tauto. destruct Hin as [X|[]]. inversion X; subst. auto.
Qed.
End Log.
