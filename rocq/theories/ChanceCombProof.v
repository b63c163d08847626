(** The plans of the combinators: transform, pairs, vectors, strings, filter, oneOf, Nullable. *)
From Coq Require Import List ZArith QArith Lia Lqa Bool SpecFloat Permutation.
From Verif Require Import Base TreeModel TreeSpec TreeProof RandomModel IntegralModel IntegralSpec IntegralProof BinSearchProof ListModel ListSpec ListProof ListMainProof PropList
  StringModel StringSpec StringProof PropTuple TupleModel TupleProof ContainerModel ContainerSpec ContainerProof GenModel GenProof PointerModel.
From Verif Require Import ChanceSpec ChanceProof ChanceLawProof.
Import ListNotations.
Local Open Scope Q_scope.

(** ** transform, pairs *)
Lemma transform_law : forall A B (g : forall E, gen E A) (h : A -> B) p, law g p -> law (fun E => transformGen (g E) h) (pmap h p).
Proof.
  intros A B g h p H E. apply (fits_bind' _ _ _ _ _ root root _ _ p (fun a => Ends (Ok (h a)))); [exact (H E)|].
  intros t. apply fits_ret. apply root_map.
Qed.
Definition pair_plan {A B} (b : bool) (p1 : plan A) (p2 : plan B) : plan (A * B) :=
  if b then pbind p1 (fun x => pbind p2 (fun y => Ends (Ok (x, y)))) else pbind p2 (fun y => pbind p1 (fun x => Ends (Ok (x, y)))).
Lemma pair_law : forall A B b (g1 : forall E, gen E A) (g2 : forall E, gen E B) p1 p2, law g1 p1 -> law g2 p2 -> law (fun E => pairOf b (g1 E) (g2 E)) (pair_plan b p1 p2).
Proof.
  intros A B b g1 g2 p1 p2 H1 H2 E. assert (R : forall (x : tree A) (y : tree B), root (shrinkPair x y) = (root x, root y)).
  { intros [x xs] [y ys]. reflexivity. }
  destruct b; cbn [pairOf pair_plan].
  - apply (fits_bind' _ _ _ _ _ root root _ _ p1 (fun x => pbind p2 (fun y => Ends (Ok (x, y))))); [exact (H1 E)|]. intros x.
    apply (fits_bind' _ _ _ _ _ root root _ _ p2 (fun y => Ends (Ok (root x, y)))); [exact (H2 E)|]. intros y. apply fits_ret, R.
  - apply (fits_bind' _ _ _ _ _ root root _ _ p2 (fun y => pbind p1 (fun x => Ends (Ok (x, y))))); [exact (H2 E)|]. intros y.
    apply (fits_bind' _ _ _ _ _ root root _ _ p1 (fun x => Ends (Ok (x, @root B y)))); [exact (H1 E)|]. intros x. apply fits_ret, R.
Qed.
Lemma prob_scale : forall A (p : plan A) (ev : A -> bool) c, mean p (fun x => match x with Ok a => if ev a then c else 0 | _ => 0 end) == prob p ev * c.
Proof.
  intros A p ev c. rewrite Qmult_comm. unfold prob. rewrite <- mean_scale. apply mean_ext. intros [a| | |]; cbn [over when]; try ring. destruct (ev a); ring.
Qed.
Lemma prob_bind_and : forall A B (p : plan A) (k : A -> plan B) (evA : A -> bool) ev c, (forall a, prob (k a) ev == if evA a then c else 0) ->
  prob (pbind p k) ev == prob p evA * c.
Proof.
  intros A B p k evA ev c H. rewrite <- prob_scale. unfold prob at 1. rewrite mean_bind. apply mean_ext. intros [a| | |]; cbn [over]; try reflexivity. apply H.
Qed.
Lemma pair_prob : forall A B b (p1 : plan A) (p2 : plan B) ev1 ev2, prob (pair_plan b p1 p2) (fun xy => ev1 (fst xy) && ev2 (snd xy))%bool == prob p1 ev1 * prob p2 ev2.
Proof.
  intros A B b p1 p2 ev1 ev2. destruct b; cbn [pair_plan].
  - apply prob_bind_and. intros x. change (pbind p2 (fun y => Ends (Ok (x, y)))) with (pmap (pair x) p2). rewrite prob_map. cbn [fst snd].
    rewrite (prob_ext _ _ _ (fun y => ev2 y && ev1 x)%bool) by (intros; apply andb_comm). apply prob_and_const.
  - rewrite Qmult_comm. apply prob_bind_and. intros y. change (pbind p1 (fun x => Ends (Ok (x, y)))) with (pmap (fun x => (x, y)) p1). rewrite prob_map. cbn [fst snd].
    apply prob_and_const.
Qed.

(** ** Vectors, lists and strings *)
Fixpoint times_plan {A} (n : nat) (p : plan A) : plan (list A) :=
  match n with O => Ends (Ok []) | S n' => pbind p (fun x => pbind (times_plan n' p) (fun xs => Ends (Ok (x :: xs)))) end.
Lemma times_fits : forall E A (g : gen E A) p, fits root g p -> forall n, fits (map root) (times n g) (times_plan n p).
Proof.
  intros E A g p H n. induction n as [|n IH]; cbn [times times_plan]; [apply fits_ret; reflexivity|].
  apply (fits_bind' _ _ _ _ _ root (map root) _ _ p (fun x => pbind (times_plan n p) (fun xs => Ends (Ok (x :: xs))))); [exact H|]. intros x.
  apply (fits_bind' _ _ _ _ _ (map root) (map root) _ _ (times_plan n p) (fun xs => Ends (Ok (root x :: xs)))); [exact IH|]. intros xs. apply fits_ret. reflexivity.
Qed.
Lemma times_prob : forall A (p : plan A) n evs, prob (times_plan n p) (each evs) == if (length evs =? n)%nat then product (map (prob p) evs) else 0.
Proof.
  intros A p n. induction n as [|n IH]; intros evs; cbn [times_plan].
  - destruct evs; reflexivity.
  - destruct evs as [|ev evs].
    + cbn [length Nat.eqb]. unfold prob. rewrite mean_bind. rewrite (mean_ext _ _ _ (fun _ => 0)); [apply mean_const|]. intros [a| | |]; cbn [over]; try reflexivity.
      rewrite mean_bind. rewrite (mean_ext _ _ _ (fun _ => 0)); [apply mean_const|]. intros [l| | |]; reflexivity.
    + cbn [length Nat.eqb map product fold_right]. fold (product (map (prob p) evs)).
      transitivity (prob p ev * (if (length evs =? n)%nat then product (map (prob p) evs) else 0)); [|destruct (length evs =? n)%nat; ring].
      apply prob_bind_and. intros x. change (pbind (times_plan n p) (fun xs => Ends (Ok (x :: xs)))) with (pmap (cons x) (times_plan n p)). rewrite prob_map. cbn [each].
      rewrite (prob_ext _ _ _ (fun l => each evs l && ev x)%bool) by (intros; apply andb_comm). rewrite prob_and_const. destruct (ev x); [apply IH|reflexivity].
Qed.
Definition list_plan {A} (mn mx : Z) (p : plan A) : plan (list A) := Draws mn mx (fun n => times_plan (Z.to_nat n) p).
Lemma list_fits : forall E A (g : gen E A) p (fin : list (tree A) -> res (tree (list A))) mn mx, (0 <= mn)%Z -> (mn <= mx)%Z -> (mx <= UINT32_MAX)%Z -> fits root g p ->
  (forall vec, (mn <= size vec <= mx)%Z -> exists t, fin vec = Ok t /\ root t = map root vec) ->
  fits root (gbind (containerSize {| minSize := mn; maxSize := mx |}) (fun n => gbind (times (Z.to_nat n) g) (fun vec => gfail (fin vec)))) (list_plan mn mx p).
Proof.
  intros E A g p fin mn mx H0 H1 H2 Hg Hf r.
  transitivity (seen root (gbind (draw mn mx) (fun n => gbind (times (Z.to_nat n) g) (fun vec => gfail (fin vec))) r)).
  { unfold gbind. rewrite containerSize_eq by auto. reflexivity. }
  assert (Q1 : fits root (gbind (draw mn mx) (fun n => gbind (times (Z.to_nat n) g) (fun vec => gfail (fin vec))))
     (pbind (Draws mn mx (fun z => Ends (Ok z))) (fun n => pbind (times_plan (Z.to_nat n) p) (fun l => Ends (Ok l))))).
  { apply (fits_bind _ _ _ _ _ same root (fun n => (mn <= n <= mx)%Z)); [apply fits_draw| |].
    - intros r0 x r' Hx. destruct (draw_ok E mn mx r0 H1) as (v & r1 & Ev & Hv). congruence.
    - intros n Hn. unfold same. apply (fits_bind _ _ _ _ _ (map root) root (fun vec => size vec = n)); [apply times_fits; exact Hg| |].
      + intros r0 vec r' Hx. apply times_ok in Hx. destruct Hx as [_ Hx]. unfold size. lia.
      + intros vec Hv. destruct (Hf vec ltac:(lia)) as (t & Et & Hr). apply fits_fail. exists t. auto. }
  rewrite Q1. unfold list_plan. cbn [pbind play]. destruct (mn <=? mx)%Z; [|reflexivity]. apply pbind_ret.
Qed.
Lemma vector_law : forall A (g : forall E, gen E A) p mn mx, law g p -> (0 <= mn)%Z -> (mn <= mx)%Z -> (mx <= UINT32_MAX)%Z ->
  law (fun E => arbi_vector (g E) {| minSize := mn; maxSize := mx |}) (list_plan mn mx p).
Proof.
  intros A g p mn mx H H0 H1 H2 E. apply (list_fits E A (g E) p (fun vec => shrinkListLike vec mn true)); auto; [exact (H E)|]. intros vec Hv.
  destruct (C13_list_sound A vec (Z.to_nat mn) true) as (t & E1 & E2 & _); [apply u32_int64; lia|unfold size in *; lia|].
  rewrite Z2Nat.id in E1 by auto. exists t. auto.
Qed.
Lemma string_law : forall A (g : forall E, gen E A) p mn mx, law g p -> (0 <= mn)%Z -> (mn <= mx)%Z -> (mx <= UINT32_MAX)%Z ->
  law (fun E => arbi_string (g E) {| minSize := mn; maxSize := mx |}) (list_plan mn mx p).
Proof.
  intros A g p mn mx H H0 H1 H2 E. apply (list_fits E A (g E) p (fun vec => shrinkString (map root vec) mn)); auto; [exact (H E)|]. intros vec Hv.
  destruct (C19_string_enumerates A (map root vec) (Z.to_nat mn)) as (t & E1 & E2 & _); [rewrite map_length; unfold size in *; lia|unfold size in *; rewrite map_length; unfold UINT32_MAX, UINT64_MAX in *; lia|].
  rewrite Z2Nat.id in E1 by auto. exists t. auto.
Qed.
Lemma list_prob : forall A (p : plan A) mn mx evs, (0 <= mn)%Z -> (mn <= Z.of_nat (length evs) <= mx)%Z ->
  prob (list_plan mn mx p) (each evs) == product (map (prob p) evs) / inject_Z (mx - mn + 1).
Proof.
  intros A p mn mx evs H0 H. unfold list_plan, prob. cbn [mean]. destruct (Z.leb_spec mn mx); [|lia].
  rewrite (average_ext _ _ _ (fun n => if (n =? Z.of_nat (length evs))%Z then product (map (prob p) evs) else 0)); [apply average_single; exact H|].
  intros n Hn. fold (prob (times_plan (Z.to_nat n) p) (each evs)). rewrite times_prob.
  destruct (Nat.eqb_spec (length evs) (Z.to_nat n)), (Z.eqb_spec n (Z.of_nat (length evs))); try reflexivity; lia.
Qed.

(** ** filter *)
Fixpoint filter_plan {A} (m : nat) (p : plan A) (crit : A -> bool) : plan A :=
  match m with O => Ends OutOfFuel | S m' => pbind p (fun a => if crit a then Ends (Ok a) else filter_plan m' p crit) end.
Lemma filter_law : forall A (g : forall E, gen E A) p crit m, law g p -> law (fun E => filterGen m (g E) crit) (filter_plan m p crit).
Proof.
  intros A g p crit m H E. induction m as [|m IH]; [intros r; reflexivity|]. cbn [filterGen filter_plan].
  apply (fits_bind' _ _ _ _ _ root root _ _ p (fun a => if crit a then Ends (Ok a) else filter_plan m p crit)); [exact (H E)|]. intros t.
  destruct (crit (root t)) eqn:C; [|exact IH]. apply fits_fail. rewrite tnodes_tsize.
  destruct (filter_tol_ok A crit 1 (tsize t) t) as (t' & E1 & E2); [lia|exact C|]. exists t'. split; [exact E1|]. inversion E2; subst; reflexivity.
Qed.
Lemma filter_prob : forall A (p : plan A) crit m ev,
  prob (filter_plan m p crit) ev == series (prob p (fun a => negb (crit a))) m * prob p (fun a => ev a && crit a)%bool.
Proof.
  intros A p crit m ev. induction m as [|m IH]; cbn [filter_plan series]; [unfold prob; cbn [mean when]; ring|].
  unfold prob at 1. rewrite mean_bind.
  rewrite (mean_ext _ _ _ (fun x => when (fun a => ev a && crit a)%bool x + prob (filter_plan m p crit) ev * when (fun a => negb (crit a)) x)).
  - rewrite mean_plus, mean_scale. fold (prob p (fun a => ev a && crit a)%bool) (prob p (fun a => negb (crit a))). rewrite IH. ring.
  - intros [a| | |]; cbn [over when]; try ring. destruct (crit a); cbn [negb]; [|rewrite andb_false_r; fold (prob (filter_plan m p crit) ev); ring].
    rewrite andb_true_r. cbn [mean when]. ring.
Qed.

(** ** Nullable *)
Lemma nullable_law : forall A (g : forall E, gen E A) p pc, law g p -> (forall E (r : rst E), getRandomBool d_095 r = play pc r) ->
  law (fun E => arbi_nullable (g E) (ptr_default (g E))) (pbind pc (fun b => if b then pmap Some p else Ends (Ok None))).
Proof.
  intros A g p pc H Hc E. unfold arbi_nullable.
  apply (fits_bind' _ _ _ _ _ same root _ _ pc (fun b => if b then pmap Some p else Ends (Ok None))); [apply fits_same, Hc|].
  intros [|]; unfold same; [|apply fits_ret; reflexivity].
  apply (fits_bind' _ _ _ _ _ root root _ _ p (fun a => Ends (Ok (Some a)))); [exact (H E)|]. intros [a ts]. apply fits_ret. reflexivity.
Qed.

(** ** oneOf *)
Fixpoint oneOf_plan {A} (m : nat) (pcs : list (plan A * plan bool)) : plan A :=
  match m with
  | O => Ends OutOfFuel
  | S m' => pbind (nth_plan pcs) (fun pc => pbind (snd pc) (fun hit => if hit then (match m' with O => Ends OutOfFuel | S _ => fst pc end) else oneOf_plan m' pcs))
  end.
Lemma retry_law : forall E A (g : gen E A) p m, fits root g p -> fits root (retry m (no_discard g)) (match m with O => Ends OutOfFuel | S _ => p end).
Proof.
  intros E A g p [|m] H r; [reflexivity|]. cbn [retry]. rewrite <- (H r). unfold no_discard, gbind, gret. destruct (g r) as [[t r']| | |]; reflexivity.
Qed.
Lemma idx_map : forall X Y (f : X -> Y) l i, idx (map f l) i = match idx l i with Ok x => Ok (f x) | UB => UB | Throw e => Throw e | OutOfFuel => OutOfFuel end.
Proof. intros X Y f l i. unfold idx. destruct (i <? 0)%Z; [reflexivity|]. rewrite nth_error_map. destruct (nth_error l (Z.to_nat i)); reflexivity. Qed.
Lemma oneOf_law : forall A (alts : list ((forall E, gen E A) * spec_float * (plan A * plan bool))),
  (0 < length alts)%nat -> (Z.of_nat (length alts) <= UINT32_MAX + 1)%Z ->
  Forall (fun x => law (fst (fst x)) (fst (snd x)) /\ forall E (r : rst E), getRandomBool (snd (fst x)) r = play (snd (snd x)) r) alts ->
  forall m, law (fun E => oneOfLoop m (map (fun x => (no_discard (fst (fst x) E), snd (fst x))) alts)) (oneOf_plan m (map snd alts)).
Proof.
  intros A alts H0 H1 HF m E. induction m as [|m IH]; [intros r; reflexivity|]. cbn [oneOfLoop oneOf_plan].
  set (gws := map (fun x => (no_discard (fst (fst x) E), snd (fst x))) alts) in *. set (pcs := map snd alts) in *.
  set (K := fun gw : weighted E A => gbind (getRandomBool (snd gw)) (fun hit => if hit then retry m (fst gw) else oneOfLoop m gws)).
  set (KP := fun pc : plan A * plan bool => pbind (snd pc) (fun hit => if hit then (match m with O => Ends OutOfFuel | S _ => fst pc end) else oneOf_plan m pcs)).
  assert (Hn : fits (E := E) same (gbind (getRandomSize 0 (Z.of_nat (length alts))) (fun i => gfail (idx alts i))) (nth_plan alts)) by (apply nth_fits; auto).
  assert (KF : forall x, In x alts -> fits root (K (no_discard (fst (fst x) E), snd (fst x))) (KP (snd x))).
  { intros x Hx. rewrite Forall_forall in HF. destruct (HF x Hx) as [L C]. unfold K, KP. cbn [fst snd].
    apply (fits_bind' _ _ _ _ _ same root _ _ (snd (snd x)) (fun hit => if hit then (match m with O => Ends OutOfFuel | S _ => fst (snd x) end) else oneOf_plan m pcs)); [apply fits_same; intros r; apply C|].
    intros [|]; unfold same; [apply retry_law; exact (L E)|exact IH]. }
  assert (IG : forall i, @idx (weighted E A) gws i = match idx alts i with Ok x => Ok (no_discard (fst (fst x) E), snd (fst x)) : res (weighted E A) | UB => UB | Throw e => Throw e | OutOfFuel => OutOfFuel end) by (intros i; apply idx_map).
  intros r.
  assert (Q1 : seen root (gbind (gbind (getRandomSize 0 (Z.of_nat (length alts))) (fun i => gfail (idx alts i))) (fun x => K (no_discard (fst (fst x) E), snd (fst x))) r)
     = play (pbind (nth_plan alts) (fun x => KP (snd x))) r).
  { apply (fits_bind _ _ _ _ _ same root (fun x => In x alts) _ _ (nth_plan alts) (fun x => KP (snd x))); [exact Hn| |exact KF].
    intros r0 x r' Hx. unfold gbind at 1 in Hx. destruct (getRandomSize 0 (Z.of_nat (length alts)) r0) as [[i r1]| | |]; try discriminate.
    destruct (idx alts i) as [y| | |] eqn:Ei; try discriminate. injection Hx as -> _. unfold idx in Ei. destruct (i <? 0)%Z; [discriminate|].
    destruct (nth_error alts (Z.to_nat i)) eqn:En; [|discriminate]. injection Ei as <-. eapply nth_error_In, En. }
  transitivity (seen root (gbind (gbind (getRandomSize 0 (Z.of_nat (length alts))) (fun i => gfail (idx alts i))) (fun x => K (no_discard (fst (fst x) E), snd (fst x))) r)).
  - replace (@length (weighted E A) gws) with (length alts) by (unfold gws, weighted; rewrite map_length; reflexivity). unfold gbind, gfail.
    destruct (getRandomSize 0 (Z.of_nat (length alts)) r) as [[i r1]| | |]; try reflexivity. cbv beta iota.
    rewrite IG.
    destruct (idx alts i); reflexivity.
  - rewrite Q1. unfold nth_plan, pcs. rewrite map_length. cbn [pbind play]. destruct (0 <=? Z.of_nat (length alts) - 1)%Z; [|reflexivity].
    rewrite idx_map. destruct (idx alts (fst (unif E 0 (Z.of_nat (length alts) - 1) r))); reflexivity.
Qed.
Lemma oneOf_prob : forall A (pcs : list (plan A * plan bool)) cs ev m, (0 < length pcs)%nat ->
  Forall2 (fun pc c => prob (snd pc) (fun b => b) == c /\ prob (snd pc) negb == 1 - c) pcs cs ->
  prob (oneOf_plan (S m) pcs) ev == series (1 - total cs / inject_Z (Z.of_nat (length pcs))) m * (dot cs (map (fun pc => prob (fst pc) ev) pcs) / inject_Z (Z.of_nat (length pcs))).
Proof.
  intros A pcs cs ev m H0 H.
  assert (N : ~ inject_Z (Z.of_nat (length pcs)) == 0) by (intros E0; apply (inject_Z_injective (Z.of_nat (length pcs)) 0%Z) in E0; lia).
  assert (S1 : forall k, prob (oneOf_plan (S k) pcs) ev ==
    total (map (fun pc => prob (snd pc) (fun b => b) * match k with O => 0 | S _ => prob (fst pc) ev end + prob (snd pc) negb * prob (oneOf_plan k pcs) ev) pcs) / inject_Z (Z.of_nat (length pcs))).
  { intros k. cbn [oneOf_plan]. unfold prob at 1. rewrite mean_bind, mean_nth by auto. apply Qdiv_comp; [|reflexivity]. cbn [over].
    clear H0 N. revert H. generalize (oneOf_plan k pcs) as rest. intros rest H. induction H as [|pc c pcs' cs' [C1 C2] H IH]; [reflexivity|].
    cbn [map total fold_right]. apply Qplus_comp; [|exact IH]. rewrite (prob_coin _ (snd pc) c _ _ _ C1 C2). rewrite C1, C2.
    destruct k; [|reflexivity]. cbn [mean when]. reflexivity. }
  induction m as [|m IH].
  - rewrite S1. cbn [series]. assert (Z0 : total (map (fun pc => prob (snd pc) (fun b => b) * 0 + prob (snd pc) negb * prob (oneOf_plan 0 pcs) ev) pcs) == 0).
    { cbn [oneOf_plan]. generalize pcs. intros l. induction l as [|pc l IHl]; [reflexivity|]. cbn [map total fold_right]. fold (total (map (fun pc => prob (snd pc) (fun b => b) * 0 + prob (snd pc) negb * prob (Ends (A := A) OutOfFuel) ev) l)).
      rewrite IHl. unfold prob at 3. cbn [mean when]. ring. }
    rewrite Z0. field. exact N.
  - rewrite S1. set (q := prob (oneOf_plan (S m) pcs) ev) in *.
    assert (T : forall q, total (map (fun pc => prob (snd pc) (fun b => b) * prob (fst pc) ev + prob (snd pc) negb * q) pcs)
      == dot cs (map (fun pc => prob (fst pc) ev) pcs) + (inject_Z (Z.of_nat (length pcs)) - total cs) * q).
    { clear - H. intros q. induction H as [|pc c pcs' cs' [C1 C2] H IH]; [change (inject_Z (Z.of_nat (length ([] : list (plan A * plan bool))))) with 0; cbn; ring|].
      cbn [map total fold_right dot length]. fold (total (map (fun pc => prob (snd pc) (fun b => b) * prob (fst pc) ev + prob (snd pc) negb * q) pcs')) (total cs').
      rewrite IH, C1, C2. rewrite Nat2Z.inj_succ. unfold Z.succ. rewrite inject_Z_plus. change (inject_Z 1) with 1. ring. }
    rewrite T, IH. cbn [series]. field. exact N.
Qed.
