(** C64: constructed objects.  C65: which generated objects later runs see changed. *)
From Coq Require Import String List ZArith Bool Lia Arith.
From Verif Require Import Base RandomModel TreeModel IntegralProof EffModel ContextModel RunnerModel RunnerSpec
  ConstructModel ConstructSpec ConstructProof SharingModel SharingSpec SharingProof.
Import ListNotations.
Local Open Scope list_scope.

(** * C64: construct *)

(** A number with its halvings as shrinks; a point from two numbers, refusing negative ones; the sum of three numbers. *)
Definition aNumber (lo hi : Z) : xgen replay Z := gbind (draw lo hi) (fun z => gret (inl (elift (Node z [Node (z / 2)%Z []; Node 0%Z []])))).
Definition point (l : list Z) : (Z * Z) + err := match l with [x; y] => if (x <? 0)%Z || (y <? 0)%Z then inr EInvalidArgument else inl (x, y) | _ => inr EOther end.

(** The object is what the constructor makes of one value of each generator, the generators being called once each, in some order; it has no shrinks. *)
Theorem C64_value : forall E V A ord (gens : list (xgen E V)) (ctor : list V -> A + err) r t r', order (length gens) ord ->
  (construct ord gens ctor r = Ok (inl t, r') <->
   exists args a, length args = length gens /\ in_turn gens args ord r r' /\ ctor (map eroot args) = inl a /\ t = ENode a (gret ENil)).
Proof. exact construct_ok. Qed.
Example C64_value_ex : construct [0; 1] [aNumber 0 9; aNumber (-9) 9] point ([7; 3]%Z : rst replay) = Ok (inl (ENode (7, 3)%Z (gret ENil)), []) /\
  construct [1; 0] [aNumber 0 9; aNumber (-9) 9] point ([7; 3]%Z : rst replay) = Ok (inl (ENode (3, 7)%Z (gret ENil)), []) /\
  construct [0; 1] [aNumber 0 9; aNumber (-9) 9] point ([7; -3]%Z : rst replay) = Ok (inr EInvalidArgument, []).
Proof. vm_compute. repeat split. Qed.

(** An exception of a generator, or of the constructor once all arguments are there, is passed on; the generators after it are not called. *)
Theorem C64_throws : forall E V A ord (gens : list (xgen E V)) (ctor : list V -> A + err) r e r', order (length gens) ord ->
  (construct ord gens ctor r = Ok (inr e, r') <->
   throws_in_turn gens e ord r r' \/ exists args, length args = length gens /\ in_turn gens args ord r r' /\ ctor (map eroot args) = inr e).
Proof. exact construct_throws. Qed.
Definition refuses : xgen replay Z := gret (inr ERuntime).
Example C64_throws_ex : order 3 [2; 1; 0] /\ construct [2; 1; 0] [aNumber 0 9; refuses; aNumber (-9) 9] point ([7; 3; 2]%Z : rst replay) = Ok (inr ERuntime, [3; 2]%Z) /\
  construct [0; 1] [aNumber 0 9; aNumber (-9) 9] point ([7; -3; 5]%Z : rst replay) = Ok (inr EInvalidArgument, [5]%Z).
Proof.
  split; [|vm_compute; auto]. apply Permutation.Permutation_sym. apply (Permutation.Permutation_rev [0; 1; 2]).
Qed.

(** Arguments: the generators given are those of the first parameters, the others are generated by default. *)
Theorem C64_generators : forall X (defaults explicits : list X) i, length explicits <= length defaults ->
  nth_error (constructGens defaults explicits) i = if i <? length explicits then nth_error explicits i else nth_error defaults i.
Proof.
  intros X defaults explicits i L. rewrite constructGens_ok by auto. destruct (Nat.ltb_spec i (length explicits)) as [Hi|Hi].
  - apply nth_error_app1. auto.
  - rewrite nth_error_app2 by auto. clear L. revert i defaults Hi. induction explicits as [|e explicits IH]; intros i defaults Hi; cbn [length skipn].
    + rewrite Nat.sub_0_r. reflexivity.
    + destruct defaults as [|d defaults]; [destruct i; destruct (_ - _); reflexivity|]. destruct i as [|i]; [cbn in Hi; lia|]. cbn [Nat.sub nth_error]. apply IH. cbn in Hi. lia.
Qed.
Example C64_generators_ex : constructGens ["int"; "string"; "bool"]%string ["mine"]%string = ["mine"; "string"; "bool"]%string /\
  constructGens ["int"; "string"]%string [] = ["int"; "string"]%string.
Proof. split; reflexivity. Qed.

(** So a constructed argument of a failing property is reported as it was generated: only the other arguments are shrunk. *)
Theorem C64_reported : forall E V W V' fuel ev (P : property E V W) w n why rep s N ord (args : list (xgen E V')) ctor,
  nth_error (gens P) N = Some (construct ord args ctor) ->
  runForAll fuel ev P w = Ok (VFalsified n why rep, s) -> nth_error (simplest_args rep) N = nth_error (with_args rep) N.
Proof. intros. eapply forAll_keeps; eauto. apply construct_unshrinkable. Qed.
(** A property of a number and a number made by construct (from one number, plus 1), failing if the sum is 8 or more. *)
Definition sums : property replay Z unit :=
  {| func := fun a w => ([], URet (fold_right Z.add 0 a <? 8)%Z, w);
     gens := [aNumber 0 9; construct [0] [aNumber 0 9] (fun l => match l with [x] => inl (x + 1)%Z | _ => inr EOther end)];
     onStartup := None; onCleanup := None; numRuns := 5; maxDurationMs := 0; seed := 1 |}.
Definition sumsEnv : env replay := {| ord_call := [0; 1]; ord_regen := [0; 1]; ord_shrinks := [0; 1]; ord_each := [0; 1]; seeded := fun _ : Z => ([6; 6]%Z : rst replay); elapsed := fun _ => 0%Z |}.
Example C64_reported_ex : exists s, runForAll 5 sumsEnv sums tt = Ok (VFalsified 1 RFalse {| with_args := [6; 7]; simplest_args := [3; 7] |}%Z, s) .
Proof. eexists. vm_compute. reflexivity. Qed.

(** * C65: sharing *)

(** Property functions get copies.  So if constructors and transformers change only objects made for them, the values of all runs are those that the generators are
    meant to give - whatever the property function does to its arguments. *)
Theorem C65_copies : forall E V fuel made (gs : list (gexp E V)) n (r : rst E), Forall (harmless (length made)) gs ->
  observed (copyRuns fuel gs n made r) = times n (gall (map (meant fuel made) gs)) r.
Proof. intros. apply copyRuns_meant; auto. apply ext_refl. Qed.
Definition aDraw (lo hi : Z) : G replay Z := draw lo hi.
Definition pick (n : Z) : G replay nat := gbind (draw 0 n) (fun i => gret (Z.to_nat i)).
Definition mixed : list (gexp replay Z) :=
  [XOneOf (pick 1) [XSame 0; XNew (aDraw 0 9)]; XFilter Z.even (XMap (fun z => ((z + 1)%Z, z)) (XOneOf (pick 1) [XSame 0; XSame 1]));
   XConstruct [true; true] [XNew (aDraw 0 9); XSame 1] (fun vs => match vs with [x; y] => ((10 * x + y)%Z, [0%Z; y]) | _ => (0%Z, vs) end)].
Example C65_copies_ex : Forall (harmless 2) mixed /\
  observed (copyRuns 5 mixed 2 [3; 4]%Z ([0; 0; 5; 1; 8; 1; 0; 2]%Z : rst replay)) = Ok ([[3; 4; 54]; [8; 4; 24]]%Z, []).
Proof.
  split; [|vm_compute; reflexivity]. unfold mixed. repeat apply Forall_cons; auto; cbn; [lia|repeat split; auto; lia|].
  split; [lia|]. split.
  - intros [|x [|y [|z vs]]]; reflexivity.
  - intros [|[|i]] g Hi Hg; cbn in Hi, Hg; try (destruct i; discriminate).
    + left. injection Hg as <-. exact I.
    + right. intros [|x [|y [|z vs]]]; split; reflexivity.
Qed.

(** Not so if a constructor changes what its reference parameter refers to, and this is the object of a just. *)
Theorem C65_constructor_refuted : exists (g : gexp replay Z) r, observed (copyRuns 5 [g] 3 [10%Z] r) = Ok ([[10]; [11]; [12]]%Z, []) /\
  times 3 (gall (map (meant 5 [10%Z]) [g])) r = Ok ([[10]; [10]; [10]]%Z, []).
Proof.
  exists (XConstruct [true] [XSame 0] (fun vs => match vs with [x] => (x, [(x + 1)%Z]) | _ => (0%Z, vs) end)), ([] : rst replay). vm_compute. split; reflexivity.
Qed.

(** The same for a transformer: just(10).map([](T& x) { return ++x; }), T not trivial. *)
Theorem C65_transformer_refuted : exists (g : gexp replay Z) r, observed (copyRuns 5 [g] 3 [10%Z] r) = Ok ([[11]; [12]; [13]]%Z, []) /\
  times 3 (gall (map (meant 5 [10%Z]) [g])) r = Ok ([[11]; [11]; [11]]%Z, []).
Proof. exists (XMap (fun x => (x + 1, x + 1)%Z) (XSame 0)), ([] : rst replay). vm_compute. split; reflexivity. Qed.

(** Concurrent tests work on the generated object itself.  If every object generated is a new one, every run starts with what the generator is
    meant to give. *)
Theorem C65_new : forall E V fuel made (g : gexp E V) used n (r : rst E), harmless (length made) g -> fresh g ->
  observed (placeRuns fuel g used 0 n made r) = times n (meant fuel made g) r.
Proof. intros. apply placeRuns_meant; auto. apply ext_refl. Qed.
Example C65_new_ex : let g := XFilter Z.even (XOneOf (pick 1) [XMap (fun z => (z, z)) (XSame 0); XNew (aDraw 0 9)]) in
  harmless 1 g /\ fresh g /\ observed (placeRuns 5 g (fun _ v => (v + 100)%Z) 0 3 [4%Z] ([0; 1; 7; 1; 6; 0]%Z : rst replay)) = Ok ([4; 6; 4]%Z, []).
Proof. cbn. repeat split; auto. Qed.

(** With just of a type that is not trivial (likewise elementOf), every run starts with what the run before left. *)
Theorem C65_same : forall E (V : Type) fuel l used n (made : list V) (r : rst E) v, nth_error made l = Some v ->
  exists objs, observed (placeRuns fuel (XSame l) used 0 n made r) = Ok (objs, r) /\ length objs = n /\ nth_error objs 0 = (if n =? 0 then None else Some v) /\
    forall i x, nth_error objs i = Some x -> S i < n -> nth_error objs (S i) = Some (used i x).
Proof.
  intros E V fuel l used n made r v N. exists (successive used 0 n v). split; [apply placeRuns_same; auto|].
  assert (K : forall n i v, length (successive used i n v) = n /\ nth_error (successive used i n v) 0 = (if n =? 0 then None else Some v) /\
    forall j x, nth_error (successive used i n v) j = Some x -> S j < n -> nth_error (successive used i n v) (S j) = Some (used (i + j) x)).
  { clear. induction n as [|n IH]; intros i v; cbn [successive]; [repeat split; auto; intros; lia|]. destruct (IH (S i) (used i v)) as (A & B & C).
    cbn [length nth_error Nat.eqb]. split; [lia|]. split; auto. intros [|j] x Hx Hj; cbn [nth_error] in *.
    - injection Hx as <-. rewrite B. destruct n; [lia|]. cbn. rewrite Nat.add_0_r. reflexivity.
    - rewrite (C j x Hx ltac:(lia)). f_equal. f_equal. lia. }
  apply K.
Qed.
Example C65_same_ex : observed (placeRuns 5 (XSame 0) (fun i v => (v + Z.of_nat i + 1)%Z) 0 4 [10%Z] ([] : rst replay)) = Ok ([10; 11; 13; 16]%Z, []).
Proof. reflexivity. Qed.
Theorem C65_place_refuted : ~ forall E V fuel made (g : gexp E V) used n (r : rst E), harmless (length made) g ->
  observed (placeRuns fuel g used 0 n made r) = times n (meant fuel made g) r.
Proof. intros X. specialize (X replay Z 5 [10%Z] (XSame 0) (fun _ v => (v + 1)%Z) 2 [] (le_n 1)). vm_compute in X. discriminate. Qed.

Print Assumptions C64_value.
Print Assumptions C64_throws.
Print Assumptions C64_generators.
Print Assumptions C64_reported.
Print Assumptions C65_copies.
Print Assumptions C65_constructor_refuted.
Print Assumptions C65_transformer_refuted.
Print Assumptions C65_new.
Print Assumptions C65_same.
Print Assumptions C65_place_refuted.
