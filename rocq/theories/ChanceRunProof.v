(** Several generators evaluated in some order, tuples, and the runs of forAll. *)
From Coq Require Import List ZArith QArith Lia Lqa Bool Permutation.
From Verif Require Import Base TreeModel TreeSpec TreeProof RandomModel TupleModel TupleProof ContainerModel EffModel ContextModel ContextSpec RunnerModel RunnerSpec TupleGenModel.
From Verif Require Import ChanceSpec ChanceProof ChanceLawProof ChanceCombProof.
From Verif Require RunnerShrinkProof RunnerPureProof RunnerProof ContextProof ConstructProof.
Import ListNotations.
Local Open Scope Q_scope.

Fixpoint in_plan {A} (ord : list nat) (ps : list (plan (A + err))) (acc : list (option A)) : plan (list (option A) + err) :=
  match ord with
  | [] => Ends (Ok (inl acc))
  | i :: o => match nth_error ps i with
              | None => Ends UB
              | Some p => pbind p (fun x => match x with inl a => in_plan o ps (set_nth i (Some a) acc) | inr e => Ends (Ok (inr e)) end)
              end
  end.
Definition gather {A} (x : list (option A) + err) : plan (list A + err) :=
  match x with
  | inr e => Ends (Ok (inr e))
  | inl acc => match collect acc with Some l => Ends (Ok (inl l)) | None => Ends UB end
  end.
Definition all_plan {A} (ord : list nat) (ps : list (plan (A + err))) : plan (list A + err) := pbind (in_plan ord ps (map (fun _ => None) ps)) gather.

Lemma in_fits : forall E X A (see : X -> A) (fs : list (G E (X + err))) ps, Forall2 (fun f p => fits (onLeft see) f p) fs ps ->
  forall ord acc, fits (onLeft (map (option_map see))) (evalIn ord fs acc) (in_plan ord ps (map (option_map see) acc)).
Proof.
  intros E X A see fs ps H. induction ord as [|i o IH]; intros acc; cbn [evalIn in_plan]; [apply fits_ret; reflexivity|].
  assert (N : match nth_error fs i, nth_error ps i with Some f, Some p => fits (onLeft see) f p | None, None => True | _, _ => False end).
  { clear - H. revert i. induction H as [|f p fs ps Hf H IH]; intros [|i]; cbn [nth_error]; auto. apply IH. }
  destruct (nth_error fs i) as [f|], (nth_error ps i) as [p|]; try contradiction; [|intros r; reflexivity].
  apply (fits_bind' _ _ _ _ _ (onLeft see) (onLeft (map (option_map see))) _ _ p
    (fun x => match x with inl a => in_plan o ps (set_nth i (Some a) (map (option_map see) acc)) | inr e => Ends (Ok (inr e)) end)); [exact N|].
  intros [t|e]; cbn [onLeft]; [|apply fits_ret; reflexivity]. specialize (IH (set_nth i (Some t) acc)). rewrite set_nth_map in IH. exact IH.
Qed.
Lemma collect_map : forall X A (see : X -> A) acc, collect (map (option_map see) acc) = option_map (map see) (collect acc).
Proof. intros X A see acc. induction acc as [|[x|] acc IH]; cbn [map collect option_map]; [reflexivity| |reflexivity]. rewrite IH. destruct (collect acc); reflexivity. Qed.
Lemma all_fits : forall E X A (see : X -> A) (fs : list (G E (X + err))) ps ord, Forall2 (fun f p => fits (onLeft see) f p) fs ps ->
  fits (onLeft (map see)) (evalTuple ord fs) (all_plan ord ps).
Proof.
  intros E X A see fs ps ord H. unfold evalTuple, all_plan.
  replace (map (fun _ => None) ps) with (map (option_map see) (map (fun _ : G E (X + err) => None) fs)) by (rewrite map_map; cbn; clear - H; induction H; cbn; congruence).
  apply (fits_bind' _ _ _ _ _ (onLeft (map (option_map see))) (onLeft (map see)) _ _ _ gather); [apply in_fits, H|].
  intros [acc|e]; cbn [onLeft gather]; [|apply fits_ret; reflexivity]. rewrite collect_map. destruct (collect acc); cbn [option_map]; [apply fits_ret; reflexivity|].
  intros r. reflexivity.
Qed.

(** The probability of the conditions on the positions not yet filled. *)
Fixpoint score {A} (evs : list (A -> bool)) (ps : list (plan (A + err))) (acc : list (option A)) : Q :=
  match evs, ps, acc with
  | ev :: evs', p :: ps', o :: acc' => (match o with Some a => tells ev a | None => prob p (left ev) end) * score evs' ps' acc'
  | [], [], [] => 1
  | _, _, _ => 0
  end.
Lemma score_set : forall A (evs : list (A -> bool)) ps acc i p, length evs = length ps -> length acc = length ps -> nth_error ps i = Some p -> nth_error acc i = Some None ->
  exists ev c, score evs ps acc == prob p (left ev) * c /\ forall a, score evs ps (set_nth i (Some a) acc) == tells ev a * c.
Proof.
  intros A evs. induction evs as [|ev evs IH]; intros [|p0 ps] [|o acc] i p L1 L2 Hp Ho; cbn in L1, L2; try discriminate; [destruct i; discriminate|].
  destruct i as [|i]; cbn [nth_error] in Hp, Ho.
  - injection Hp as ->. injection Ho as ->. exists ev, (score evs ps acc). split; [reflexivity|]. intros a. reflexivity.
  - destruct (IH ps acc i p) as (ev1 & c & H1 & H2); auto; try lia. exists ev1, ((match o with Some a => tells ev a | None => prob p0 (left ev) end) * c). cbn [score set_nth]. split; [rewrite H1; ring|].
    intros a. rewrite H2. ring.
Qed.
Lemma mean_assoc : forall A B C (p : plan A) (k : A -> plan B) (l : B -> plan C) f, mean (pbind (pbind p k) l) f == mean (pbind p (fun a => pbind (k a) l)) f.
Proof. intros. rewrite !mean_bind. apply mean_ext. intros [a| | |]; cbn [over]; try reflexivity. rewrite mean_bind. reflexivity. Qed.
Lemma in_prob : forall A (evs : list (A -> bool)) ps, length evs = length ps -> forall ord acc, NoDup ord -> length acc = length ps ->
  (forall i, (i < length ps)%nat -> nth_error acc i = Some None <-> In i ord) -> (forall i, In i ord -> (i < length ps)%nat) ->
  prob (pbind (in_plan ord ps acc) gather) (left (each evs)) == score evs ps acc.
Proof.
  intros A evs ps L. induction ord as [|i o IH]; intros acc ND La Hacc Hin; cbn [in_plan].
  - cbn [pbind gather]. assert (S0 : exists l, collect acc = Some l /\ score evs ps acc == tells (each evs) l).
    { clear - L La Hacc. revert ps acc L La Hacc. induction evs as [|ev evs IH]; intros [|p ps] [|x acc] L La Hacc; cbn in L, La; try discriminate.
      - exists []. split; reflexivity.
      - destruct x as [a|]; [|exfalso; apply (proj1 (Hacc 0%nat ltac:(cbn; lia))); reflexivity].
        destruct (IH ps acc ltac:(lia) ltac:(lia)) as (l & C & S1).
        { intros i Hi. specialize (Hacc (S i) ltac:(cbn; lia)). exact Hacc. }
        exists (a :: l). cbn [collect]. rewrite C. split; [reflexivity|]. cbn [score each]. rewrite S1. unfold tells. cbn [each]. destruct (ev a), (each evs l); cbn; ring. }
    destruct S0 as (l & C & S1). rewrite C, S1. unfold prob. cbn [mean when left]. reflexivity.
  - pose proof (Hin i (or_introl eq_refl)) as Hi. destruct (nth_error ps i) as [p|] eqn:Ep; [|apply nth_error_None in Ep; lia].
    assert (Ho : nth_error acc i = Some None) by (apply Hacc; [exact Hi|left; reflexivity]).
    destruct (score_set A evs ps acc i p L La Ep Ho) as (ev & c & S1 & S2). rewrite S1. unfold prob at 1. rewrite mean_assoc.
    fold (prob (pbind p (fun x => pbind (match x with inl a => in_plan o ps (set_nth i (Some a) acc) | inr e => Ends (Ok (inr e)) end) gather)) (left (each evs))).
    apply prob_bind_and. intros [a|e]; [|reflexivity]. inversion ND as [|? ? Ni ND']; subst.
    rewrite IH; auto; [rewrite S2; cbn [left]; unfold tells; destruct (ev a); ring|rewrite RunnerShrinkProof.set_nth_len; exact La| |intros j Hj; apply Hin; right; exact Hj].
    intros j Hj. destruct (Nat.eq_dec i j) as [->|Nij].
    + rewrite RunnerShrinkProof.set_nth_at by lia. split; [discriminate|contradiction].
    + rewrite RunnerShrinkProof.set_nth_other by auto. rewrite (Hacc j Hj). cbn [In]. intuition congruence.
Qed.
Lemma all_prob : forall A (ps : list (plan (A + err))) evs ord, order (length ps) ord -> length evs = length ps ->
  prob (all_plan ord ps) (left (each evs)) == product (map (fun pe => prob (fst pe) (left (snd pe))) (combine ps evs)).
Proof.
  intros A ps evs ord O L. unfold all_plan.
  assert (I : forall i, In i ord <-> (i < length ps)%nat) by (intros i; rewrite (Permutation_in' eq_refl O), in_seq; lia).
  rewrite (in_prob A evs ps L).
  - clear O I. revert ps L. induction evs as [|ev evs IH]; intros [|p ps] L; cbn in L; try discriminate; [reflexivity|]. cbn [map score combine product fold_right fst snd].
    rewrite IH by lia. reflexivity.
  - apply (Permutation_NoDup (Permutation_sym O)), seq_NoDup.
  - apply map_length.
  - intros i Hi. rewrite nth_error_map. destruct (nth_error ps i) eqn:E; [|apply nth_error_None in E; lia]. cbn. split; [intros _; apply I; exact Hi|reflexivity].
  - intros i Hi. apply I, Hi.
Qed.

(** Tuples. *)
Definition tuple_plan {A} (ord : list nat) (ps : list (plan A)) : plan (list A) :=
  pbind (all_plan ord (map (pmap inl) ps)) (fun x => match x with inl l => Ends (Ok l) | inr e => Ends (Throw e) end).
Lemma tuple_law : forall A (gps : list ((forall E, gen E A) * plan A)) ord, Forall (fun gp => law (fst gp) (snd gp)) gps ->
  law (fun E => tupleOf ord (map (fun gp => fst gp E) gps)) (tuple_plan ord (map snd gps)).
Proof.
  intros A gps ord H E. unfold tupleOf, tuple_plan.
  apply (fits_bind' _ _ _ _ _ (onLeft (map root)) root _ _ _ (fun x => match x with inl l => Ends (Ok l) | inr e => Ends (Throw e) end)).
  - apply all_fits. rewrite !map_map. clear ord. induction H as [|[g p] gps Hg H IH]; cbn [map]; constructor; [|exact IH].
    apply (fits_bind' _ _ _ _ _ root (onLeft root) _ _ p (fun a => Ends (Ok (inl a)))); [exact (Hg E)|]. intros t. apply fits_ret. reflexivity.
  - intros [ts|e]; cbn [onLeft]; [|intros r; reflexivity]. apply fits_ret. rewrite shrinkTuple_ok. apply prodT_root.
Qed.
Lemma tuple_prob : forall A (ps : list (plan A)) evs ord, order (length ps) ord -> length evs = length ps ->
  prob (tuple_plan ord ps) (each evs) == product (map (fun pe => prob (fst pe) (snd pe)) (combine ps evs)).
Proof.
  intros A ps evs ord O L. unfold tuple_plan.
  transitivity (prob (all_plan ord (map (pmap inl) ps)) (left (each evs))).
  - unfold prob. rewrite mean_bind. apply mean_ext. intros [[l|e]| | |]; reflexivity.
  - rewrite all_prob by (rewrite map_length; assumption). clear O. revert ps L. induction evs as [|ev evs IH]; intros [|p ps] L; cbn in L; try discriminate; [reflexivity|].
    cbn [map combine product fold_right fst snd]. rewrite prob_map. cbn [left]. apply Qmult_comp; [reflexivity|]. apply IH. lia.
Qed.

(** The runs of forAll: anything but a pass or a discard ends them. *)
Fixpoint pelse {A} (p : plan A) (k : A -> plan bool) : plan bool :=
  match p with
  | Ends (Ok a) => k a
  | Ends _ => Ends (Ok false)
  | Draws lo hi next => if (lo <=? hi)%Z then Draws lo hi (fun z => pelse (next z) k) else Ends (Ok false)
  end.
Lemma result_else : forall E A (p : plan A) k (r : rst E), result (play (pelse p k) r) = match play p r with Ok (a, r') => result (play (k a) r') | _ => Ok false end.
Proof.
  intros E A p k. induction p as [x|lo hi next IH]; intros r; [destruct x; reflexivity|]. cbn [pelse play]. destruct (lo <=? hi)%Z eqn:L; [|reflexivity].
  cbn [play]. rewrite L. apply IH.
Qed.
Lemma prob_else : forall A (p : plan A) k, prob (pelse p k) (fun b => b) == mean p (fun x => match x with Ok a => prob (k a) (fun b => b) | _ => 0 end).
Proof.
  intros A p k. unfold prob. induction p as [x|lo hi next IH]; [destruct x; reflexivity|]. cbn [pelse mean]. destruct (lo <=? hi)%Z eqn:L; [|reflexivity].
  cbn [mean]. rewrite L. apply average_ext. intros z _. apply IH.
Qed.
(** A plan that always ends normally. *)
Fixpoint sure {A} (p : plan A) : Prop := match p with Ends x => exists a, x = Ok a | Draws lo hi next => (lo <= hi)%Z /\ forall z, sure (next z) end.
Lemma sure_else : forall A (p : plan A) k, (forall a, sure (k a)) -> sure (pelse p k).
Proof.
  intros A p k H. induction p as [x|lo hi next IH]; [destruct x; cbn; eauto|]. cbn [pelse]. destruct (lo <=? hi)%Z eqn:L; cbn [sure]; [|eauto].
  apply Z.leb_le in L. auto.
Qed.
Lemma sure_not : forall (p : plan bool), sure p -> prob p negb == 1 - prob p (fun b => b).
Proof.
  intros p. unfold prob. induction p as [x|lo hi next IH]; cbn [sure mean].
  - intros [[|] ->]; reflexivity.
  - intros [L H]. destruct (Z.leb_spec lo hi); [|lia]. rewrite (average_ext _ _ _ (fun z => 1 + -(1) * mean (next z) (when (fun b => b)))).
    + rewrite average_plus, average_scale, average_const by lia. ring.
    + intros z _. rewrite IH by auto. ring.
Qed.

Fixpoint try_plan {A} (fuel : nat) (p : plan A) (j : A -> judgement) (k : plan bool) : plan bool :=
  match fuel with
  | O => Ends (Ok false)
  | S f => pelse p (fun x => match j x with JPass => k | JDiscard => try_plan f p j k | _ => Ends (Ok false) end)
  end.
Fixpoint runs_plan {A} (fuel : nat) (p : plan A) (j : A -> judgement) (n : nat) : plan bool :=
  match n with O => Ends (Ok true) | S n' => try_plan fuel p j (runs_plan fuel p j n') end.
Lemma try_sure : forall A fuel (p : plan A) j k, sure k -> sure (try_plan fuel p j k).
Proof.
  intros A fuel p j k H. induction fuel as [|f IH]; cbn [try_plan]; [cbn; eauto|]. apply sure_else. intros a. destruct (j a); auto; cbn; eauto.
Qed.
Lemma runs_sure : forall A fuel (p : plan A) j n, sure (runs_plan fuel p j n).
Proof. intros. induction n as [|n IH]; [cbn; eauto|]. apply try_sure, IH. Qed.
Definition judged (j : judgement) (want : bool) : bool := match j with JPass => want | JDiscard => negb want | _ => false end.
Lemma try_prob : forall A fuel (p : plan A) j k,
  prob (try_plan fuel p j k) (fun b => b) == series (prob p (fun x => judged (j x) false)) fuel * prob p (fun x => judged (j x) true) * prob k (fun b => b).
Proof.
  intros A fuel p j k. induction fuel as [|f IH]; cbn [try_plan series]; [unfold prob at 1; cbn [mean when]; ring|]. rewrite prob_else.
  set (Q1 := prob p (fun x => judged (j x) true)) in *. set (Q0 := prob p (fun x => judged (j x) false)) in *. set (K := prob k (fun b => b)) in *.
  rewrite (mean_ext _ _ _ (fun x => K * when (fun x => judged (j x) true) x + (series Q0 f * Q1 * K) * when (fun x => judged (j x) false) x)).
  - rewrite mean_plus, !mean_scale. fold (prob p (fun x => judged (j x) true)). fold (prob p (fun x => judged (j x) false)). fold Q1 Q0. ring.
  - intros [a| | |]; cbn [when]; try ring. destruct (j a) eqn:J; cbn [judged negb].
    + unfold K. ring.
    + rewrite IH. ring.
    + unfold prob; cbn [mean when]. ring.
    + unfold prob; cbn [mean when]. ring.
Qed.
Lemma runs_prob : forall A fuel (p : plan A) j n,
  prob (runs_plan fuel p j n) (fun b => b) == power (series (prob p (fun x => judged (j x) false)) fuel * prob p (fun x => judged (j x) true)) n.
Proof. intros. induction n as [|n IH]; [reflexivity|]. cbn [runs_plan power]. rewrite try_prob, IH. reflexivity. Qed.

Section Run.
Context {E : engine} {V W : Type} (ev : env E) (P : property E V W) (beh : list V -> list op * ures) (p : plan (list V + err)).
Context (HP : pure_property P beh) (HL : no_leak beh) (Hp : fits (onLeft (map eroot)) (evalTuple (ord_call ev) (gens P)) p).
Lemma retry_fits : forall fuel k (K : rs E V W -> bool), (forall s', failures (cx s') = [] -> Ok (K s') = result (play k (rnd s'))) ->
  forall s, failures (cx s) = [] ->
  Ok (match retryRun fuel ev P s with Ok (SPassed s') => K s' | _ => false end) = result (play (try_plan fuel p (judgeInput beh) k) (rnd s)).
Proof.
  intros fuel k K HK. induction fuel as [|f IH]; intros s Hs; cbn [retryRun try_plan]; [reflexivity|].
  rewrite result_else. rewrite <- (Hp (rnd s)).
  destruct (evalTuple (ord_call ev) (gens P) (rnd s)) as [[[ts|e] r1]| | |] eqn:Ev.
  2: { assert (A : attempt ev P s = Ok (AThrew e, with_rnd r1 s)).
       { unfold attempt. destruct HP as (_ & -> & _). cbn [runHook]. rewrite Ev. reflexivity. }
       rewrite A. cbn [bind seen onLeft]. unfold judgeInput. cbn [judge snd]. destruct e; try reflexivity.
       - apply (IH (with_rnd r1 s) Hs).
       - apply (HK (with_rnd r1 s) Hs). }
  2-4: assert (A : forall x, attempt ev P s <> Ok x) by (intros x; unfold attempt; destruct HP as (_ & -> & _); cbn [runHook]; rewrite Ev; discriminate);
       cbn [seen]; destruct (attempt ev P s) as [[o s1]| | |]; [exfalso; eapply A; reflexivity|reflexivity..].
  rewrite (RunnerPureProof.pure_attempt _ _ _ _ _ _ _ _ _ HP Ev). cbn [bind seen onLeft]. unfold judgeInput. set (a := map eroot ts).
  assert (F : failures (cx (RunnerPureProof.after beh a r1 s)) = failed_expectations (fst (beh a))) by (unfold RunnerPureProof.after; cbn [cx]; rewrite ContextProof.failures_ops, Hs; reflexivity).
  unfold judge. destruct (snd (beh a)) as [b|e] eqn:Eb; cbn [RunnerPureProof.out].
  - unfold ctx_flush. rewrite F. destruct (failed_expectations (fst (beh a))) as [|f0 fs]; [|reflexivity]. destruct b; [|reflexivity].
    rewrite HK by reflexivity. reflexivity.
  - assert (L : e = EDiscard \/ e = ESuccess -> failures (cx (RunnerPureProof.after beh a r1 s)) = []).
    { intros He. rewrite F. destruct (failed_expectations (fst (beh a))) eqn:Ef; [reflexivity|]. destruct (HL a) as [L1 L2]; [congruence|]. destruct He as [->| ->]; congruence. }
    destruct e; try reflexivity.
    + apply (IH (RunnerPureProof.after beh a r1 s)), L. auto.
    + apply (HK (RunnerPureProof.after beh a r1 s)), L. auto.
Qed.
Lemma runs_fits : maxDurationMs P = 0%Z -> forall fuel n i s, failures (cx s) = [] ->
  Ok (match runLoop fuel ev P n i s with Ok (v, _) => succeeded v | _ => false end) = result (play (runs_plan fuel p (judgeInput beh) n) (rnd s)).
Proof.
  intros HD fuel n. induction n as [|n IH]; intros i s Hs; cbn [runLoop runs_plan]; [reflexivity|]. rewrite HD. cbn [Z.eqb negb andb].
  rewrite <- (retry_fits fuel (runs_plan fuel p (judgeInput beh) n) (fun s' => match runLoop fuel ev P n (S i) s' with Ok (v, _) => succeeded v | _ => false end)); auto.
  destruct (retryRun fuel ev P s) as [[s'|why saved s']| | |]; cbn [bind]; try reflexivity.
  destruct (shrink ev P (with_rnd saved s')) as [[rep s2]| | |]; reflexivity.
Qed.
End Run.
