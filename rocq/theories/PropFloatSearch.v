(** C91: what shrinking a floating point argument finds, and how often it calls the property. *)
From Coq Require Import List ZArith Lia Bool SpecFloat Permutation.
From Verif Require Import Base TreeModel TreeSpec TreeProof BinSearchModel BinSearchProof PropInt BoolProof RandomModel ContainerModel TupleModel TupleProof IntegralSpec IntegralProof EffModel EffSpec EffProof ContextModel
  RunnerModel RunnerSpec RunnerProof FloatModel FloatSpec FloatProof FloatTree PropFloat SearchSpec SearchProof PropRun PropSearch PropListSearch PropMinimal EffortSpec EffortProof PropEffort FloatSearchSpec FloatSearchProof.
Import ListNotations.
Local Open Scope Z_scope.

(** ** How often *)

(** The shrinks of a value below 2^32 are those of [calm]: nothing is left out. *)
Theorem C91_calm : forall ty s m e x l, standard ty -> valid ty (S754_finite s m e) -> magnitude (S754_finite s m e) x -> x <= 32 -> shrinkFloat ty (S754_finite s m e) = Ok l ->
  map defined (map calm l) = l.
Proof.
  intros ty s m e x l Hty Hv Hm Hx Hl. rewrite map_map. rewrite <- (map_id l) at 2. apply map_ext_in. intros c Hc. apply calm_defined.
  intros v. apply (C58_defined ty s m e x l Hty Hv Hm Hx Hl c v Hc).
Qed.
Example C91_calm_ex : exists l, shrinkFloat binary32 f12 = Ok l /\ map root (map calm l) = [S754_zero false; S754_finite false 12582912 (-24); S754_finite false 12582912 (-22); S754_finite false 12582912 (-21)].
Proof. eexists. split; vm_compute; reflexivity. Qed.

(** A value of 2^(x-1) <= |v| < 2^x with |x| <= 2^k takes at most k + 3 calls, whatever the answers are. *)
Theorem C91_effort : forall ty s m e x l k, standard ty -> valid ty (S754_finite s m e) -> magnitude (S754_finite s m e) x -> Z.abs x <= 2 ^ Z.of_nat k ->
  shrinkFloat ty (S754_finite s m e) = Ok l -> within (k + 3) (Node (S754_finite s m e) (map calm l)).
Proof.
  intros ty s m e x l k Hty Hv Hm Hx Hl. apply within_iff. destruct (C58_tree ty s m e x Hty Hv Hm) as (t & us & Ht & Hs & HF). rewrite Hs in Hl. inversion Hl; subst l.
  rewrite longest_eq. cbn [shrinks map calm costs fold_right]. fold (costs (map calm us)). apply follow_costs in HF.
  assert (L := longest_binarySearch x t k (standard_64 ty x Hty (finite_range ty s m e x Hty Hv Hm)) Ht Hx). rewrite longest_eq in L. cbn [longest]. lia.
Qed.
Lemma worst_by : forall ty v k, (match shrinkFloat ty v with Ok l => Nat.eqb (longest (Node v (map calm l))) k | _ => false end) = true -> exists l, shrinkFloat ty v = Ok l /\ worst k (Node v (map calm l)).
Proof. intros ty v k H. destruct (shrinkFloat ty v) as [l| | |]; try discriminate. exists l. split; auto. apply Nat.eqb_eq in H. split; [apply within_iff; lia|]. rewrite <- H. apply costs_search_t. Qed.
(** 12 = 3/4 * 2^4: five. *)
Example C91_effort_ex : exists l, shrinkFloat binary32 f12 = Ok l /\ worst 5 (Node f12 (map calm l)).
Proof. apply worst_by. vm_compute. reflexivity. Qed.

(** Any float takes at most 11 calls, any double at most 14. *)
Lemma every_effort : forall ty k v l, standard ty -> valid ty v -> shrinkFloat ty v = Ok l -> emax ty + prec ty - 3 <= 2 ^ Z.of_nat k -> emax ty <= 2 ^ Z.of_nat k -> within (k + 3) (Node v (map calm l)).
Proof.
  intros ty k v l Hty Hv Hl H1 H2. destruct (C58_special ty Hty) as (Z1 & Z2 & Z3).
  assert (A : forall s m e q, valid ty (S754_finite s m e) -> shrinkFloat ty (S754_finite s m e) = Ok q -> within (k + 3) (Node (S754_finite s m e) (map calm q))).
  { intros s m e q Hq Hsq. destruct (has_magnitude s m e) as [x Hx]. apply (C91_effort ty s m e x q k); auto. assert (R := finite_range ty s m e x Hty Hq Hx). lia. }
  destruct v as [s|s| |s m e].
  - rewrite Z1 in Hl. inversion Hl; subst. apply within_iff. cbn. lia.
  - destruct (Z3 s) as (E & V & M). rewrite E in Hl. destruct (largest ty s) as [| | |s' m e] eqn:El; try contradiction. exact (A _ _ _ _ V Hl).
  - rewrite Z2 in Hl. inversion Hl; subst. apply within_iff. cbn. lia.
  - apply A; auto.
Qed.
Theorem C91_generators : forall E : engine, effort (E := E) 11 (floats binary32) /\ effort (E := E) 14 (floats binary64).
Proof.
  intros E. split; intros r t r' H.
  - assert (S : standard binary32) by (left; auto). destruct (floats_ok _ _ _ _ _ S H) as (v & l & -> & V & L). apply (every_effort binary32 8 v l); auto; vm_compute; discriminate.
  - assert (S : standard binary64) by (right; auto). destruct (floats_ok _ _ _ _ _ S H) as (v & l & -> & V & L). apply (every_effort binary64 11 v l); auto; vm_compute; discriminate.
Qed.
(** No less will do: the least positive values take that many. *)
Theorem C91_worst : (exists l, shrinkFloat binary32 (S754_finite false 1 (-149)) = Ok l /\ worst 11 (Node (S754_finite false 1 (-149)) (map calm l))) /\
  (exists l, shrinkFloat binary64 (S754_finite false 1 (-1074)) = Ok l /\ worst 14 (Node (S754_finite false 1 (-1074)) (map calm l))).
Proof.
  split; apply worst_by; vm_compute; reflexivity.
Qed.
(** An argument of a run (C82_run): a failing run of one double calls the property at most 14 times more. *)
Example C91_generators_ex : forall E, arg_effort 14 (treeArg (fun v => v) (floats (E := E) binary64)).
Proof. intros E. apply C82_arguments, C91_generators. Qed.

(** ** What is found *)

(** When failing means being further from zero than some others, the value found fails, lies on the same side, and either lies below 1 or nothing of at most half its size fails. *)
Theorem C91_found : forall ty v l (fails : spec_float -> Prop) tried found, standard ty -> valid ty v -> sameSide v v -> shrinkFloat ty v = Ok l -> grows fails -> fails v ->
  scan fails (map calm l) tried found ->
  let r := root (ending (Node v (map calm l)) found) in
  fails r /\ sameSide v r /\ (belowOne r \/ forall w, halfOf w (finitely ty r) -> ~ fails w).
Proof.
  intros ty v l fails tried found Hty Hv Hs Hl HG Hf HS.
  assert (A : forall s m e, valid ty (S754_finite s m e) -> shrinkFloat ty (S754_finite s m e) = Ok l -> (v = S754_finite s m e \/ v = S754_infinity s /\ S754_finite s m e = largest ty s) ->
    let r := root (ending (Node v (map calm l)) found) in fails r /\ sameSide v r /\ (belowOne r \/ forall w, halfOf w (finitely ty r) -> ~ fails w)).
  { intros s m e V L B. destruct (has_magnitude s m e) as [x Hx]. assert (R := finite_range ty s m e x Hty V Hx).
    destruct (C58_tree ty s m e x Hty V Hx) as (t & us & Ht & Hsf & HF). rewrite Hsf in L. inversion L; subst l. cbn [map] in HS.
    assert (HS' : exists tr, scan fails (map calm us) tr found). { inversion HS as [|c cs t0 f0 Hn Hs0|c cs t0 f0 Hn Hs0]; subst; [eauto|]. exfalso. apply (proj2 HG). exact Hn. }
    destruct HS' as [tr HS']. assert (B' : v = S754_finite s m e \/ v = S754_infinity s /\ 1 <= x).
    { destruct B as [B|[B B2]]; [left; auto|right; split; auto]. destruct (C58_special ty Hty) as (_ & _ & Z3). destruct (Z3 s) as (_ & _ & M). rewrite <- B2 in M. apply magnitude_digits in M. apply magnitude_digits in Hx.
      destruct Hty as [->| ->]; cbn [emax binary32 binary64] in *; lia. }
    destruct (exponent_found s m e x t us fails tr found v Hx (standard_64 ty x Hty R) Ht HF HG Hf B' HS') as (X1 & X2 & X3).
    replace (root (ending (Node v (map calm (FNode (S754_zero false) [] :: us))) found)) with (root (ending (Node v []) found)) by (destruct found; reflexivity).
    intros r. fold r in X1, X2, X3. split; [exact X1|]. split; [destruct B as [->|[-> _]]; destruct r; cbn; intuition|]. destruct X3 as [X3|X3]; [left; exact X3|right].
    destruct found as [u|]; [destruct r; cbn [finitely] in *; try contradiction; auto; destruct X2; discriminate|]. unfold r in *. cbn [ending root] in *. destruct B as [->|[-> B]]; cbn [finitely]; [exact X3|rewrite <- B; exact X3]. }
  destruct v as [s|s| |s m e]; try destruct Hs; [|apply (A s m e); auto].
  destruct (C58_special ty Hty) as (_ & _ & Z3). destruct (Z3 s) as (E & V & M). rewrite E in Hl. destruct (largest ty s) as [|a| |s' m e] eqn:El; try contradiction.
  assert (s' = s) by (unfold largest, SFmax_float in El; destruct s; cbn in El; inversion El; auto). subst s'. apply (A s m e); auto.
Qed.

(** Fails from 4 on; of 12 the first to fail is 6 (0, 3/4 and 3 do not), then the power of two below, 4. *)
Example C91_found_ex : grows (fun v => over 4 v = true) /\ sameSide f12 f12 /\ over 4 f12 = true /\ exists l tried u, shrinkFloat binary32 f12 = Ok l /\
  scan (fun v => over 4 v = true) (map calm l) tried (Some u) /\ root u = S754_finite false 8388608 (-21) /\ length tried = 5%nat.
Proof.
  split; [apply over_grows|]. split; [reflexivity|]. split; [reflexivity|]. do 3 eexists. split; [vm_compute; reflexivity|]. cbn [map calm]. split.
  - apply scan_pass; [discriminate|]. apply scan_pass; [discriminate|]. apply scan_pass; [discriminate|]. apply scan_fail; [reflexivity|]. apply scan_fail; [reflexivity|]. cbn. apply scan_end.
  - split; reflexivity.
Qed.

(** A property of floating point arguments that fails from some value c >= 1 on: what is reported is at least c and, unless it is infinite, less than 2 c. *)
Theorem C91_threshold : forall ty E V W fuel ev (P : property E V W) beh w n why rep s' (inj : spec_float -> V) o1 N o2 c, standard ty ->
  pure_property P beh -> quiet (gens P) -> no_leak beh -> ord_regen ev = ord_call ev -> order (length (gens P)) (ord_each ev) ->
  nth_error (gens P) N = Some (treeArg inj (floats ty)) -> ord_each ev = o1 ++ N :: o2 ->
  runForAll fuel ev P w = Ok (VFalsified n why rep, s') ->
  (forall x, bad beh (set_nth N (inj x) (partly o1 (simplest_args rep) (with_args rep))) <-> over c x = true) ->
  exists v r, nth_error (with_args rep) N = Some (inj v) /\ nth_error (simplest_args rep) N = Some (inj r) /\ over c v = true /\ over c r = true /\ over (2 * c) (finitely ty r) = false.
Proof.
  intros ty E V W fuel ev P beh w n why rep s' inj o1 N o2 c Hty HP Hq Hnl Ho Hoe HgN Ho1 H HB.
  destruct (falsified_scan _ _ _ _ _ _ _ _ _ _ _ _ _ inj (floats ty) o1 N o2 HP Hq Hnl Ho Hoe HgN Ho1 H) as (q & q' & t & tried & found & G & W1 & W2 & F1 & F2).
  destruct (floats_ok _ _ _ _ _ Hty G) as (v & l & -> & Hv & Hl). cbn [root shrinks] in *. apply HB in F1.
  set (fails := fun x => bad beh (set_nth N (inj x) (partly o1 (simplest_args rep) (with_args rep)))) in *.
  assert (HG : grows fails). { destruct (over_grows c) as [G1 G2]. split; [intros a b Hab Ha; apply HB; apply HB in Ha; eapply G1; eauto|]. intros X. apply HB in X. discriminate. }
  destruct (C91_found ty v l fails tried found Hty Hv) as (R1 & R2 & R3); auto; [destruct v as [|[|]| |[|] ? ?]; cbn in *; auto; discriminate|apply HB; auto|].
  exists v, (root (ending (Node v (map calm l)) found)). split; auto. split; auto. split; auto. apply HB in R1. split; auto. set (r := root _) in *.
  destruct R3 as [R3|R3].
  - destruct r as [| | |s m e]; cbn in R3; try contradiction. destruct R3 as [R3 R4]. destruct s; [discriminate|]. unfold over in R1. rewrite Z.min_l in R1 by lia. apply Z.leb_le in R1.
    replace (e - e) with 0 in R1 by lia. replace (0 - e) with (- e) in R1 by lia. nia.
  - destruct (over (2 * c) (finitely ty r)) eqn:O; auto. exfalso. apply (R3 (S754_finite false c 0)); [|apply HB; unfold over; cbn; apply Z.leb_le; lia].
    destruct (finitely ty r) as [z|[|]| |[|] m e] eqn:Fr; try discriminate.
    + exfalso. clear - Fr Hty. destruct r as [| [|] | |]; cbn [finitely] in Fr; try discriminate; destruct Hty as [->| ->]; discriminate.
    + cbn. split; auto. unfold over in O. apply Z.leb_le in O. unfold atMost. rewrite (Z.min_comm 0 e). exact O.
Qed.
(** Fails from 5 on: of 100.0 the search reports 6.25, with six calls in all. *)
Example C91_threshold_ex : report80 (fun v => negb (over 5 v)) (floats binary64) [4636737291354636288] = Some ([S754_finite false 7036874417766400 (-46)], [S754_finite false 7036874417766400 (-50)], 6%nat) /\
  pure_property (prop80 (fun v => negb (over 5 v)) (floats binary64)) (f80 (fun v => negb (over 5 v))) /\ no_leak (f80 (fun v => negb (over 5 v))) /\
  (forall x, bad (f80 (fun v => negb (over 5 v))) [x] <-> over 5 x = true).
Proof.
  split; [vm_compute; reflexivity|]. split; [split; auto|]. split; [apply no_leak80|]. intros x. rewrite bad80. destruct (over 5 x); split; auto.
Qed.

(** The boundary itself is not found, as it is for integers (C66): 5.0 fails, is nearer to zero than 6.25, and is a value of the type. *)
Theorem C91_boundary_refuted : exists c v r w k, report80 (fun x => negb (over c x)) (floats binary64) [v] = Some ([ofBits binary64 v], [r], k) /\
  valid binary64 w /\ over c w = true /\ noFurther w r /\ ~ noFurther r w.
Proof.
  exists 5%positive, 4636737291354636288, (S754_finite false 7036874417766400 (-50)), (S754_finite false 5629499534213120 (-50)), 6%nat.
  split; [vm_compute; reflexivity|]. split; [reflexivity|]. split; [reflexivity|]. split; [split; [reflexivity|vm_compute; discriminate]|]. intros [_ H]. apply H. vm_compute. reflexivity.
Qed.

Print Assumptions C91_calm.
Print Assumptions C91_effort.
Print Assumptions C91_generators.
Print Assumptions C91_worst.
Print Assumptions C91_found.
Print Assumptions C91_threshold.
Print Assumptions C91_boundary_refuted.
