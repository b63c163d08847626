(** C75: every value a generator is meant to produce can be produced. *)
From Coq Require Import List ZArith Lia Bool QArith Permutation SpecFloat.
From Verif Require Import Base TreeModel TreeSpec TreeProof BinSearchProof RandomModel IntegralModel IntegralSpec IntegralProof BoolModel BoolProof ListModel ListSpec StringModel StringSpec
  ContainerModel ContainerSpec ContainerProof TupleModel TupleGenModel GenModel GenSpec GenProof EffModel EffSpec ContextModel RunnerModel RunnerSpec PointerModel PointerSpec
  FloatModel FloatSpec FloatProof FloatPrintModel FloatPrintSpec FloatPrintProof RoundProof WeightSpec WeightProof Utf8Model Cesu8Model Utf16Model UtfSpec UtfProof Utf16Proof UnicodeGenModel UnicodeGenProof
  ConstructModel PropInt PropList PropTuple PropGen PropFloat PropPointer PropUtf PropUnicode PropWeights PropRun SupportSpec SupportProof SupportCoinProof.
Import ListNotations.
Local Open Scope Z_scope.

(** * Numbers *)

(** interval and inRange: exactly the values of the range. *)
Theorem C75_integers : forall ty mn mx x, tmin ty <= mn -> mn <= mx -> mx <= tmax ty -> ~ reversed_char ty mn mx ->
  (canGive (interval ty mn mx) x <-> mn <= x <= mx).
Proof.
  intros ty mn mx x H1 H2 H3 Hc. split; [|intros; apply number; auto]. intros (l & t & <- & Y).
  destruct (generateInteger_ok replay ty mn mx (l ++ [])) as (t' & r' & E & G); auto. pose proof (Y []) as Y0. unfold interval in Y0. rewrite E in Y0. injection Y0 as <- _. exact (gi_range _ _ _ G).
Qed.
Lemma small : forall x, -5 <= x <= 5 -> canGive (interval TI32 (-5) 5) x.
Proof. intros x H. apply C75_integers; cbn; try lia. intros [X _]. discriminate. Qed.
Example C75_integers_ex : canGive (interval TI32 (-5) 5) 3 /\ ~ canGive (interval TI32 (-5) 5) 6 /\ canGive (interval TChar 65 70) 66.
Proof.
  split; [apply small; lia|]. split.
  - rewrite C75_integers; cbn; try lia. intros [X _]. discriminate.
  - apply C75_integers; cbn; try lia. intros (_ & X & _). lia.
Qed.
(** The default generators: exactly the values of the type, except for char, which gives 0 or is undefined. *)
Theorem C75_types : forall ty x, ty <> TChar -> (canGive (arbi ty) x <-> tmin ty <= x <= tmax ty).
Proof.
  intros ty x Hc. apply (C75_integers ty (tmin ty) (tmax ty) x); try lia; [destruct ty; cbn; lia|]. intros [E _]. contradiction.
Qed.
Example C75_types_ex : canGive (arbi TI32) 123456789 /\ canGive (arbi TU64) UINT64_MAX /\ ~ canGive (arbi TI8) 128.
Proof. split; [|split]; rewrite C75_types by discriminate; cbn; lia. Qed.
Theorem C75_char_refuted : forall x, canGive (arbi TChar) x <-> x = 0.
Proof.
  intros x. split.
  - intros (l & t & <- & Y). specialize (Y []). unfold arbi, generateInteger in Y. change ((tmin TChar =? tmin TChar) && (tmax TChar =? tmax TChar)) with true in Y. cbv iota in Y.
    apply gbind_ok in Y. destruct Y as (b & r1 & _ & Y). destruct b.
    + apply gbind_ok in Y. destruct Y as (v & r2 & Y1 & Y). apply gbind_ok in Y1. destruct Y1 as (i & r3 & Y1 & Y2).
      assert (v = 0). { unfold gfail in Y2. change (boundaryValues TChar) with [0] in Y2. destruct (idx [0] i) as [z| | |] eqn:Ei; try discriminate. injection Y2 as -> _. apply idx_nth in Ei. destruct Ei as [_ Ei]. destruct (Z.to_nat i) as [|[|k]]; try discriminate. injection Ei as <-. reflexivity. }
      subst v. destruct (gi_shrink_tail replay TChar (tmin TChar) (tmax TChar) 0 r2) as (t' & Et & Rt & _); [cbn; lia|cbn; lia|cbn; lia|]. rewrite Et in Y. injection Y as -> _. exact Rt.
    + apply gbind_ok in Y. destruct Y as (v & r2 & Y1 & _). discriminate.
  - intros ->. destruct (gi_shrink_tail replay TChar (tmin TChar) (tmax TChar) 0 []) as (t & Et & Rt & _); [cbn; lia|cbn; lia|cbn; lia|].
    exists [0; 0], t. split; [exact Rt|]. intros rest. destruct (gi_shrink_tail replay TChar (tmin TChar) (tmax TChar) 0 rest) as (t' & Et' & _); [cbn; lia|cbn; lia|cbn; lia|].
    assert (t' = t) as -> by (vm_compute in Et, Et'; congruence). exact Et'.
Qed.
(** bool: true whatever the probability, false unless the probability is one. *)
Theorem C75_bool : forall p b, valid binary64 p -> p <> S754_nan -> legal_weight p -> (canGive (arbi_bool p) b <-> (b = true \/ p <> d_one)).
Proof.
  intros p b V1 V2 V3. split.
  - intros (l & t & <- & Y). destruct (spec_eq_one p) as [->|N]; [|right; exact N]. left. specialize (Y []). cbn in Y. injection Y as <- _. reflexivity.
  - intros H. assert (Q : exists l, yields (getRandomBool p) l b).
    { destruct b; [apply can_win, ok_weight; auto|]. destruct H as [H|H]; [discriminate|]. apply can_lose; auto. apply ok_weight; auto. }
    destruct Q as (l & Y). exists l, (shrinkBool b). split; [destruct b; reflexivity|]. exact (yields_map _ _ _ shrinkBool _ _ Y).
Qed.
Example C75_bool_ex : canGive (arbi_bool d_zero) true /\ canGive (arbi_bool d_zero) false /\ canGive (arbi_bool d_half) false /\ ~ canGive (arbi_bool d_one) false.
Proof. repeat split; try (apply C75_bool; [reflexivity|discriminate|split; reflexivity|]; auto; right; discriminate). intros H. apply C75_bool in H; [|reflexivity|discriminate|split; reflexivity]. destruct H as [H|H]; [discriminate|]. apply H. reflexivity. Qed.

(** float and double: every value of the format, infinities and NaN included. *)
Theorem C75_floats : forall ty v, standard ty -> valid ty v -> gives fst (genFloat ty) v.
Proof.
  intros ty v Hty Hv. destruct (C58_all_values ty v Hty Hv) as (raw & R & <-). exists [raw], (ofBits ty raw, shrinkFloat ty (ofBits ty raw)). split; [reflexivity|].
  unfold genFloat. apply (yields_map _ _ _ (fun raw => (ofBits ty raw, shrinkFloat ty (ofBits ty raw)))), yields_draw.
  assert (2 ^ (prec ty + Z.log2 (emax ty) + 1) = 4 * emax ty * 2 ^ (prec ty - 1)) as ->; [|lia]. destruct Hty as [-> | ->]; reflexivity.
Qed.
Example C75_floats_ex : gives fst (genFloat binary32) (S754_infinity true) /\ gives fst (genFloat binary64) (S754_finite true 6755399441055744 (-51)) /\ gives fst (genFloat binary64) S754_nan.
Proof. split; [|split]; (apply C75_floats; [unfold standard; auto|vm_compute; reflexivity]). Qed.

(** * Containers *)
Theorem C75_vector : forall A (g : gen replay A) mn mx vs, Forall (canGive g) vs -> 0 <= mn -> mn <= size vs <= mx -> mx <= UINT32_MAX ->
  canGive (arbi_vector g {| minSize := mn; maxSize := mx |}) vs.
Proof.
  intros A g mn mx vs F H0 H1 H2. destruct (repeated A g vs F) as (l & ts & R & Y). assert (L : length ts = length vs) by (rewrite <- R, map_length; reflexivity).
  destruct (C13_list_sound A ts (Z.to_nat mn) true) as (t & Et & Rt & _); [unfold size, INT64_MAX, UINT32_MAX in *; lia|unfold size in *; lia|]. rewrite Z2Nat.id in Et by lia.
  exists ([size vs] ++ l ++ []), t. split; [congruence|]. unfold arbi_vector. eapply yields_bind; [apply size_drawn; auto|]. unfold size. rewrite Nat2Z.id.
  eapply yields_bind; [exact Y|]. apply yields_ok. exact Et.
Qed.
Example C75_vector_ex : canGive (arbi_vector (interval TI32 (-5) 5) {| minSize := 1; maxSize := 4 |}) [3; -2; 3].
Proof. apply C75_vector; cbn; try lia. repeat constructor; apply small; lia. Qed.
Theorem C75_string : forall A (g : gen replay A) mn mx vs, Forall (canGive g) vs -> 0 <= mn -> mn <= size vs <= mx -> mx <= UINT32_MAX ->
  canGive (arbi_string g {| minSize := mn; maxSize := mx |}) vs.
Proof.
  intros A g mn mx vs F H0 H1 H2. destruct (repeated A g vs F) as (l & ts & R & Y).
  destruct (C19_string_enumerates A vs (Z.to_nat mn)) as (t & Et & Rt & _); [unfold size in *; lia|unfold size, UINT64_MAX, UINT32_MAX in *; lia|]. rewrite Z2Nat.id in Et by lia.
  exists ([size vs] ++ l ++ []), t. split; [exact Rt|]. unfold arbi_string. eapply yields_bind; [apply size_drawn; auto|]. unfold size. rewrite Nat2Z.id.
  eapply yields_bind; [exact Y|]. rewrite R. apply yields_ok. exact Et.
Qed.
Example C75_string_ex : canGive (arbi_string (interval TU8 97 122) {| minSize := 0; maxSize := 5 |}) [122; 97; 113].
Proof. apply C75_string; cbn; try lia. repeat constructor; (apply C75_integers; cbn; try lia; intros [X _]; discriminate). Qed.
(** A set, given as its elements in ascending order; as many insertions as it has elements are enough. *)
Theorem C75_set : forall A (lt : A -> A -> bool) (g : gen replay A) mn mx vs, strict_order lt -> ascending lt vs -> Forall (canGive g) vs -> 0 <= mn -> mn <= size vs <= mx -> mx <= UINT32_MAX ->
  forall tries, (length vs <= tries)%nat -> canGive (arbi_set tries lt g {| minSize := mn; maxSize := mx |}) vs.
Proof.
  intros A lt g mn mx vs So As F H0 H1 H2 tries Ht. destruct (filled_up A lt g vs So F) as (l & ts & R & Y). assert (L : length ts = length vs) by (rewrite <- R, map_length; reflexivity).
  specialize (Y [] As tries Ht). cbn [app] in Y. destruct (C17_set_subsets_once A lt ts (Z.to_nat mn)) as (t & Et & Rt & _); [exact So|rewrite R; exact As|unfold size, INT64_MAX, UINT32_MAX in *; lia|unfold size in *; lia|].
  rewrite Z2Nat.id in Et by lia. exists ([size vs] ++ l ++ []), t. split; [congruence|]. unfold arbi_set. eapply yields_bind; [apply size_drawn; auto|].
  eapply yields_bind; [exact Y|]. apply yields_ok. exact Et.
Qed.
Example C75_set_ex : canGive (arbi_set 3 Z.ltb (interval TI32 (-5) 5) {| minSize := 0; maxSize := 4 |}) [-5; 0; 2].
Proof.
  apply C75_set; cbn; try lia.
  - split; intros; rewrite ?Z.ltb_lt, ?Z.ltb_ge in *; lia.
  - repeat constructor.
  - repeat constructor; apply small; lia.
Qed.
Theorem C75_map : forall K V (lt : K -> K -> bool) (gk : gen replay K) (gv : gen replay V) mn mx vs, strict_order lt -> ascending lt (map fst vs) -> Forall (fun kv => canGive gk (fst kv) /\ canGive gv (snd kv)) vs ->
  0 <= mn -> mn <= size vs <= mx -> mx <= UINT32_MAX -> forall tries, (length vs <= tries)%nat -> canGive (arbi_map tries lt gk gv {| minSize := mn; maxSize := mx |}) vs.
Proof.
  intros K V lt gk gv mn mx vs So As F H0 H1 H2 tries Ht.
  destruct (filled_up K lt gk (map fst vs) So) as (l & ks & R & Y); [rewrite Forall_map; eapply Forall_impl; [|exact F]; cbn; tauto|].
  destruct (repeated V gv (map snd vs)) as (l' & es & R' & Y'); [rewrite Forall_map; eapply Forall_impl; [|exact F]; cbn; tauto|].
  assert (L : length ks = length vs) by (rewrite <- (map_length root ks), R, map_length; reflexivity). assert (L' : length es = length vs) by (rewrite <- (map_length root es), R', map_length; reflexivity).
  specialize (Y [] As tries ltac:(rewrite map_length; exact Ht)). cbn [app] in Y. unfold size in Y. rewrite map_length in Y. change (Z.of_nat 0 + Z.of_nat (length vs)) with (size vs) in Y. rewrite map_length in Y'.
  assert (Hm : forall (a : list (tree K)) (b : list (tree V)), length a = length b -> map fst (combine a b) = a) by (induction a as [|x a IH]; intros [|y b] H; cbn in *; [reflexivity|discriminate|discriminate|f_equal; apply IH; lia]).
  assert (Hz : map (fun e => (root (fst e), root (snd e))) (combine ks es) = vs).
  { clear -R R'. revert ks es R R'. induction vs as [|[k v] vs IH]; intros [|a ks] [|b es] R R'; try discriminate; [reflexivity|]. cbn in *. injection R as R0 R. injection R' as R1 R'. rewrite R0, R1. f_equal. apply IH; auto. }
  assert (Ak : ascending lt (map (fun e => root (fst e)) (combine ks es))) by (rewrite <- (map_map fst root), Hm, R by lia; exact As).
  destruct (C18_map_prefixes K V lt (combine ks es) (Z.to_nat mn)) as (t & Et & Rt & _); [exact So|exact Ak|unfold size, INT64_MAX, UINT32_MAX in *; rewrite combine_length; lia|unfold size in *; rewrite combine_length; lia|].
  rewrite Z2Nat.id in Et by lia. exists ([size vs] ++ l ++ l' ++ []), t. split; [congruence|]. unfold arbi_map. eapply yields_bind; [apply size_drawn; auto|].
  eapply yields_bind; [exact Y|]. rewrite L. eapply yields_bind; [exact Y'|]. apply yields_ok. cbn [minSize].
  rewrite (ContainerProof.fold_map_insert (tree K) (tree V) (less_shr lt) (combine ks es) []); [exact Et| |].
  - split; intros; unfold less_shr; [apply (so_irrefl _ So)|eapply (so_trans _ So); eauto].
  - cbn [app]. rewrite Hm by lia. rewrite <- R in As. clear -As. induction ks as [|k ks IH]; cbn in *; [exact I|]. destruct As as [A1 A2]. split; [|apply IH; exact A2]. rewrite Forall_map in A1. exact A1.
Qed.
Example C75_map_ex : canGive (arbi_map 2 Z.ltb (interval TI32 (-5) 5) (arbi TI8) {| minSize := 0; maxSize := 4 |}) [(-5, 100); (2, -128)].
Proof.
  apply C75_map; cbn; try lia.
  - split; intros; rewrite ?Z.ltb_lt, ?Z.ltb_ge in *; lia.
  - repeat constructor.
  - repeat constructor; cbn; first [apply small; lia|apply C75_types; [discriminate|cbn; lia]].
Qed.
Theorem C75_pair : forall A B (g1 : gen replay A) (g2 : gen replay B) first a b, canGive g1 a -> canGive g2 b -> canGive (pairOf first g1 g2) (a, b).
Proof.
  intros A B g1 g2 first a b (l1 & t1 & <- & Y1) (l2 & t2 & <- & Y2). destruct (C21_pair_values A B t1 t2) as [R _]. destruct first.
  - exists (l1 ++ l2), (shrinkPair t1 t2). split; [exact R|]. eapply yields_bind; [exact Y1|]. exact (yields_map _ _ _ (fun b => shrinkPair t1 b) _ _ Y2).
  - exists (l2 ++ l1), (shrinkPair t1 t2). split; [exact R|]. eapply yields_bind; [exact Y2|]. exact (yields_map _ _ _ (fun a => shrinkPair a t2) _ _ Y1).
Qed.
Example C75_pair_ex : forall first, canGive (pairOf first (interval TI32 (-5) 5) (arbi TI8)) (4, -100).
Proof. intros first. apply C75_pair; [apply small; lia|apply C75_types; [discriminate|cbn; lia]]. Qed.
Theorem C75_tuple : forall U (gs : list (gen replay U)) ord vs, order (length gs) ord -> Forall2 canGive gs vs -> canGive (tupleOf ord gs) vs.
Proof.
  intros U gs ord vs O F. assert (F' : Forall2 (fun f v => exists l x, root x = v /\ yields f l (inl (B := err) x)) (map (fun g => gbind g (fun t => gret (inl t))) gs) vs).
  { clear O. induction F as [|g v gs vs (l & t & R & Y) F IH]; constructor; auto. exists l, t. split; [exact R|]. exact (yields_map _ _ _ inl _ _ Y). }
  destruct (all_given _ _ root _ _ F') as (xs & ls & M & L & H). pose proof (in_any_order _ _ xs (fun i => nth i ls []) L H ord) as Y. rewrite map_length in Y. specialize (Y O).
  exists (flat_map (fun i => nth i ls []) ord ++ []), (shrinkTuple xs). split; [destruct (C21_tuple_values U xs) as [R _]; congruence|]. unfold tupleOf. eapply yields_bind; [exact Y|apply yields_ret].
Qed.
Example C75_tuple_ex : canGive (tupleOf [2; 0; 1]%nat [interval TI32 (-5) 5; arbi TI8; interval TI32 (-5) 5]) [4; 100; -4].
Proof.
  apply C75_tuple.
  - apply perm_trans with (l' := [0; 2; 1]%nat); [apply perm_swap|apply perm_skip, perm_swap].
  - repeat constructor; first [apply small; lia|apply C75_types; [discriminate|cbn; lia]].
Qed.
(** Nullable gives null and every value of the default generator of the element; shared_ptr only the latter. *)
Theorem C75_nullable : forall A (dflt : gen replay A) self v, (forall a, v = Some a -> canGive dflt a) -> canGive (arbi_nullable dflt self) v.
Proof.
  intros A dflt self [a|] H.
  - destruct (H a eq_refl) as (l & t & <- & Y). exists ([0] ++ l), (map_tree Some t). split; [destruct t; reflexivity|]. unfold arbi_nullable. eapply yields_bind with (x := true).
    + intros rest. rewrite d095_coin. reflexivity.
    + rewrite <- mapShrinkable_some. exact (yields_map _ _ _ (mapShrinkable (fun shr => make_shrinkable (Some (root shr)))) _ _ Y).
  - exists ([UINT64_MAX] ++ []), (make_shrinkable None). split; [reflexivity|]. unfold arbi_nullable. eapply yields_bind with (x := false); [|apply yields_ret]. intros rest. rewrite d095_coin. reflexivity.
Qed.
Example C75_nullable_ex : canGive (arbi_nullable (interval TI32 (-5) 5) (ptr_of (arbi TI32))) (Some 4) /\ canGive (arbi_nullable (interval TI32 (-5) 5) (ptr_of (arbi TI32))) None.
Proof. split; apply C75_nullable; intros a E; [injection E as <-; apply small; lia|discriminate]. Qed.
Theorem C75_shared_ptr : forall A (dflt : gen replay A) self a, canGive dflt a -> canGive (arbi_shared_ptr dflt self) (Some a).
Proof. intros A dflt self a (l & t & <- & Y). exists l, (map_tree Some t). split; [destruct t; reflexivity|]. exact (yields_map _ _ _ (map_tree Some) _ _ Y). Qed.
Example C75_shared_ptr_ex : canGive (arbi_shared_ptr (interval TI32 (-5) 5) (ptr_of (arbi TI32))) (Some (-1)).
Proof. apply C75_shared_ptr, small. lia. Qed.

(** * Combinators *)
Theorem C75_transform : forall A B (f : A -> B) (g : gen replay A) a, canGive g a -> canGive (transformGen g f) (f a).
Proof. intros A B f g a (l & t & <- & Y). exists l, (map_tree f t). split; [destruct t; reflexivity|]. exact (yields_map _ _ _ (map_tree f) _ _ Y). Qed.
Example C75_transform_ex : canGive (transformGen (interval TI32 (-5) 5) (fun x => x * x)) 16.
Proof. exact (C75_transform Z Z (fun x => x * x) _ (-4) ltac:(apply small; lia)). Qed.
Theorem C75_filter : forall A (crit : A -> bool) (g : gen replay A) a, canGive g a -> crit a = true -> forall tries, canGive (filterGen (1 + tries) g crit) a.
Proof.
  intros A crit g a (l & t & <- & Y) C tries. destruct (filter_tol_ok A crit 1 (tsize t) t (le_n _) C) as [t' [E1 E2]]. exists (l ++ []), t'. split; [destruct E2; reflexivity|].
  cbn [Nat.add filterGen]. eapply yields_bind; [exact Y|]. rewrite C. apply yields_ok. exact E1.
Qed.
Example C75_filter_ex : canGive (filterGen 1 (interval TI32 (-5) 5) Z.even) (-4).
Proof. apply (C75_filter Z Z.even _ (-4)); [apply small; lia|reflexivity]. Qed.

(** oneOf: every value of every alternative, whatever its weight; even an alternative of weight 0 has its turn. *)
Theorem C75_one_of : forall A (gws : list (weighted replay A)) mk i g w v, oneOf gws = Ok mk -> Forall (fun gw => valid binary64 (snd gw) /\ snd gw <> S754_nan) gws ->
  Z.of_nat (length gws) <= UINT32_MAX + 1 -> nth_error gws i = Some (g, w) -> canGiveD g v -> forall tries, canGive (mk (2 + tries)%nat) v.
Proof.
  unfold weighted. intros A gws mk i g w v Hmk Hw Hl Hi (l & o & Ho & Y) tries. assert (Lm : length (map snd gws) = length gws) by apply map_length. unfold UINT32_MAX in Hl. destruct o as [t|]; [|discriminate]. cbn [option_map] in Ho. injection Ho as <-.
  assert (Lg : Forall legal_weight (map snd gws)).
  { destruct (C25_rejects replay A gws) as [_ R]. destruct (legal_dec (map snd gws)) as [L|L]; [exact L|]. rewrite R in Hmk by tauto. discriminate. }
  unfold oneOf in Hmk. destruct (oneOfWeights (map snd gws)) as [ws| | |] eqn:Ew; try discriminate. injection Hmk as <-.
  assert (Ok' : Forall okWeight ws).
  { eapply ok_weights; [|rewrite Lm; lia|exact Ew]. rewrite Forall_map in *. rewrite Forall_forall in *. intros gw I. destruct (Hw gw I). auto. }
  destruct (C25_weights _ _ Ew) as [Lw _]. rewrite Lm in Lw. assert (Li : (i < length gws)%nat) by (apply nth_error_Some; congruence).
  destruct (nth_error ws i) as [w'|] eqn:Ei; [|apply nth_error_None in Ei; lia].
  assert (Ec : nth_error (combine (map fst gws) ws) i = Some (g, w')).
  { clear -Hi Ei. revert ws i Hi Ei. induction gws as [|[g0 w0] gws IH]; intros ws [|i] H1 H2; try discriminate; destruct ws as [|a ws]; try discriminate; cbn in *; [congruence|]. apply IH; auto. }
  destruct (can_win w') as [lw Yw]; [rewrite Forall_forall in Ok'; apply Ok'; eapply nth_error_In; exact Ei|].
  exists ([Z.of_nat i] ++ [] ++ lw ++ l ++ []), t. split; [reflexivity|]. cbn [Nat.add oneOfLoop].
  assert (Lc : length (combine (map fst gws) ws) = length gws) by (rewrite combine_length, map_length; lia). unfold weighted. rewrite Lc.
  eapply yields_bind; [eapply yields_ext; [intros r; symmetry; apply getRandomSize_n; unfold UINT32_MAX; lia|apply yields_draw; lia]|].
  eapply yields_bind; [apply yields_ok; apply idx_nth; split; [lia|]; rewrite Nat2Z.id; exact Ec|].
  eapply yields_bind; [exact Yw|]. cbn [fst]. cbn [retry]. eapply yields_bind; [exact Y|apply yields_ret].
Qed.
Example C75_one_of_ex : exists mk, oneOf [(no_discard (interval TI32 (-5) 5), d_one); (no_discard (just 42), d_zero)] = Ok mk /\ canGive (mk 2%nat) 42 /\ canGive (mk 5%nat) (-3).
Proof.
  set (gws := [(no_discard (interval TI32 (-5) 5), d_one); (no_discard (just 42), d_zero)]). destruct (C25_rejects replay Z gws) as [Acc _]. destruct Acc as [mk Hmk]; [split; [repeat constructor|reflexivity]|].
  exists mk. split; [exact Hmk|]. assert (W : Forall (fun gw : weighted replay Z => valid binary64 (snd gw) /\ snd gw <> S754_nan) gws) by (repeat constructor; discriminate).
  assert (L : Z.of_nat (length gws) <= UINT32_MAX + 1) by (cbn; unfold UINT32_MAX; lia). split.
  - refine (C75_one_of Z gws mk 1 (no_discard (just 42)) d_zero 42 Hmk W L eq_refl _ 0). exists [], (Some (make_shrinkable 42)). split; [reflexivity|]. intros rest. reflexivity.
  - refine (C75_one_of Z gws mk 0 (no_discard (interval TI32 (-5) 5)) d_one (-3) Hmk W L eq_refl _ 3).
    destruct (small (-3) ltac:(lia)) as (l & t & R & Y). exists l, (Some t). split; [cbn; congruence|]. exact (yields_map _ _ _ Some _ _ Y).
Qed.
Theorem C75_element_of : forall A (vals : list (A * spec_float)) mk v, elementOf (E := replay) vals = Ok mk -> Forall (fun vw => valid binary64 (snd vw) /\ snd vw <> S754_nan) vals ->
  Z.of_nat (length vals) <= UINT32_MAX + 1 -> In v (map fst vals) -> forall tries, canGive (mk (2 + tries)%nat) v.
Proof.
  intros A vals mk v Hmk Hw Hl Hin tries. apply in_map_iff in Hin. destruct Hin as ([v' w] & E & Hin). cbn [fst] in E. subst v'. apply In_nth_error in Hin. destruct Hin as [i Hi].
  apply (C75_one_of A (map (fun vw => (no_discard (just (fst vw)), snd vw)) vals) mk i (no_discard (just v)) w v Hmk).
  - rewrite Forall_map. exact Hw.
  - rewrite map_length. exact Hl.
  - rewrite nth_error_map, Hi. reflexivity.
  - exists [], (Some (make_shrinkable v)). split; [reflexivity|]. intros rest. reflexivity.
Qed.
Example C75_element_of_ex : exists mk, elementOf (E := replay) [(7, d_half); (8, d_zero); (9, d_zero)] = Ok mk /\ canGive (mk 2%nat) 9.
Proof.
  destruct (elementOf (E := replay) [(7, d_half); (8, d_zero); (9, d_zero)]) as [mk| | |] eqn:Hmk; try discriminate. exists mk. split; [reflexivity|].
  refine (C75_element_of Z _ mk 9 Hmk _ _ _ 0).
  - repeat constructor; discriminate.
  - cbn. unfold UINT32_MAX. lia.
  - cbn. auto.
Qed.
(** intervals and uintervals: every value of every interval. *)
Theorem C75_intervals : forall sg is mk i x, choice (E := replay) sg is = Ok mk -> Forall (legal sg) is -> total is < 2 ^ 64 -> Z.of_nat (length is) <= UINT32_MAX + 1 ->
  In i is -> fst i <= x <= snd i -> forall tries, canGive (mk (2 + tries)%nat) x.
Proof.
  intros sg is mk i x Hmk Hl Ht Hn Hin Hx tries. rewrite choice_oneOf in Hmk by auto. pose proof Hin as Hin'. apply In_nth_error in Hin'. destruct Hin' as [k Hk].
  assert (Hi : legal sg i) by (rewrite Forall_forall in Hl; auto).
  apply (C75_one_of Z _ mk k (no_discard (interval (if sg then TI64 else TU64) (fst i) (snd i))) (ratio (width i) (total is)) x Hmk).
  - apply Forall_forall. intros [g w] I. apply in_combine_r in I. rewrite map_map in I. apply in_map_iff in I. destruct I as (j & <- & Hj). cbn [snd].
    destruct (ratio_ok (width j) (total is) (width_le _ _ _ Hl Hj) Ht) as (m & e & q & E & Vd & _). rewrite E. split; [exact Vd|discriminate].
  - unfold each, weighted. rewrite combine_length, !map_length. lia.
  - unfold each. clear -Hk. revert k Hk. generalize (total is). intros T. induction is as [|j is IH]; intros [|k] H; try discriminate; cbn in *; [injection H as ->; reflexivity|apply IH; exact H].
  - destruct Hi as (H1 & H2 & H3 & _). destruct (number (if sg then TI64 else TU64) (fst i) (snd i) x) as (l & t & <- & Y).
    + destruct sg; exact H1.
    + exact Hx.
    + destruct sg; exact H3.
    + intros [X _]. destruct sg; discriminate.
    + exists l, (Some t). split; [reflexivity|]. exact (yields_map _ _ _ Some _ _ Y).
Qed.
Example C75_intervals_ex : exists mk, choice (E := replay) true [(-10, -4); (7, 7)] = Ok mk /\ canGive (mk 2%nat) 7 /\ canGive (mk 2%nat) (-6).
Proof.
  assert (L : Forall (legal true) [(-10, -4); (7, 7)]) by (repeat constructor; cbn; unfold INT64_MIN, INT64_MAX; lia).
  destruct (C74_two replay true (-10, -4) (7, 7)) as [mk Hmk]; [inversion L; auto|inversion L as [|? ? ? L']; inversion L'; auto|cbn; lia|]. exists mk. split; [exact Hmk|].
  split; [apply (C75_intervals true _ mk (7, 7) 7 Hmk L)|apply (C75_intervals true _ mk (-10, -4) (-6) Hmk L)]; cbn; unfold UINT32_MAX; try lia; auto.
Qed.
(** unicode: every scalar value except NUL. *)
Theorem C75_unicode : forall x, scalar x -> x <> 0 -> forall tries, canGive (unicodeGen (2 + tries)) x.
Proof.
  intros x Hx Hz tries. assert (U : forall l t, yields (oneOfLoop (2 + tries) unicode_pair) l t -> yields (unicodeGen (2 + tries)) l t).
  { intros l t Y. eapply yields_ext; [|exact Y]. intros r. symmetry. apply unicodeGen_eq. }
  assert (Hw : oneOfWeights (map snd (unicode_pair (E := replay))) = Ok [w_front; w_rear]) by (vm_compute; reflexivity).
  assert (Ho : oneOf (unicode_pair (E := replay)) = Ok (fun fuel => oneOfLoop fuel unicode_pair)) by (unfold oneOf; rewrite Hw; reflexivity).
  assert (K : exists i lo hi w, nth_error (unicode_pair (E := replay)) i = Some (no_discard (interval TU32 lo hi), w) /\ 0 <= lo /\ lo <= x <= hi /\ hi <= tmax TU32).
  { unfold scalar in Hx. destruct (Z_le_gt_dec x 0xD7FF).
    - exists 0%nat, 0x1, 0xD7FF, w_front. split; [reflexivity|]. cbn. lia.
    - exists 1%nat, 0xE000, 0x10FFFF, w_rear. split; [reflexivity|]. cbn. lia. }
  destruct K as (i & lo & hi & w & Hn & H0 & H1 & H2).
  destruct (C75_one_of Z unicode_pair _ i (no_discard (interval TU32 lo hi)) w x Ho) with (tries := tries) as (l & t & R & Y); auto.
  - repeat constructor; try discriminate; vm_compute; reflexivity.
  - cbn. unfold UINT32_MAX. lia.
  - destruct (number TU32 lo hi x) as (l & t & <- & Y); auto; [intros [X _]; discriminate|]. exists l, (Some t). split; [reflexivity|]. exact (yields_map _ _ _ Some _ _ Y).
  - exists l, t. split; [exact R|]. apply U. exact Y.
Qed.
Example C75_unicode_ex : canGive (unicodeGen 2) 0x1F600.
Proof. apply (C75_unicode 0x1F600); [unfold scalar; lia|lia]. Qed.
(** Encoded strings: the encoding of every list of scalar values of a size in range which the element generator can produce one by one. *)
Theorem C75_encoded : forall co enc, In (co, enc) forms -> forall (g : gen replay Z) mn mx vs, Forall (fun c => scalar c /\ canGive g c) vs -> 0 <= mn -> mn <= size vs <= mx -> 6 * mx + 2 < 2 ^ 31 ->
  canGive (arbi_encoded co g {| minSize := mn; maxSize := mx |}) (flat_map enc vs).
Proof.
  intros co enc Hf g mn mx vs F H0 H1 H2. pose proof (forms_exact co enc Hf) as CE.
  assert (D : exists l vec, map root vec = vs /\ forall rest, draws g (l ++ rest) vec rest).
  { clear -F. induction F as [|c vs [_ (l & t & R & Y)] F (l' & vec & R' & D)]; [exists [], []; split; [reflexivity|]; intros; constructor|].
    exists (l ++ l'), (t :: vec). cbn [map]. rewrite R, R'. split; [reflexivity|]. intros rest. rewrite <- app_assoc. econstructor; [apply Y|apply D]. }
  destruct D as (l & vec & R & D). assert (Hc : Forall scalar (map root vec)) by (rewrite R; eapply Forall_impl; [|exact F]; cbn; tauto).
  assert (Lv : length vec = length vs) by (rewrite <- R, map_length; reflexivity). unfold size in H1.
  pose proof (bytes_le co enc CE (map root vec) Hc) as Hb. pose proof (ce_end co enc CE) as He. rewrite map_length in Hb.
  assert (Hs : bsize (flat_map enc (map root vec) ++ co_end co) < 2 ^ 31) by (rewrite bsize_app; unfold bsize; lia).
  assert (Hs' : bsize (flat_map enc (map root vec)) < 2 ^ 31) by (rewrite bsize_app in Hs; unfold bsize in *; lia).
  destruct (ce_valid co enc CE (map root vec) Hc Hs) as [k Hk].
  destruct (C20_shrinks co enc Hf (map root vec) (Z.to_nat mn) Hc ltac:(rewrite map_length; lia) Hs) as [t [Et [Rt Pt]]]. rewrite Z2Nat.id, map_length in Et by auto.
  exists ([Z.of_nat (length vs)] ++ l ++ [] ++ []), t. split; [congruence|]. unfold arbi_encoded. eapply yields_bind; [apply size_drawn; unfold UINT32_MAX; lia|].
  eapply yields_bind with (x := (flat_map enc (map root vec), offsets enc (map root vec))).
  - intros rest. pose proof (encodeLoop_ok co enc CE replay g (Z.to_nat (Z.of_nat (length vs))) [] (l ++ rest) vec rest Hc ltac:(lia) (D rest) Hs') as El. exact El.
  - cbv beta iota zeta. eapply yields_bind; [apply yields_ok; exact Hk|]. cbn [fst minSize]. apply yields_ok. rewrite <- Lv. exact Et.
Qed.
Example C75_encoded_ex : canGive (arbi_encoded utf8_coding (unicodeGen 2) {| minSize := 0; maxSize := 3 |}) [0x41; 0xF0; 0x9F; 0x98; 0x80].
Proof.
  apply (C75_encoded utf8_coding utf8 ltac:(cbn; auto) (unicodeGen 2) 0 3 [0x41; 0x1F600]); cbn; try lia.
  assert (U : forall c, scalar c -> c <> 0 -> scalar c /\ canGive (unicodeGen 2) c) by (intros c Hc Hz; split; [exact Hc|exact (C75_unicode c Hc Hz 0)]).
  constructor; [|constructor; [|constructor]]; apply U; unfold scalar; lia.
Qed.

(** * Generators that depend on generated values *)
(** The second generator has to be able to produce something for every value the first one can shrink to, because shrinks are computed
    while generating. *)
Theorem C75_dependency : forall T U (g1 : egen replay T) (g2 : T -> egen replay U) (Q1 : T -> Prop) (Q2 : T -> U -> Prop) a b, canGiveE Q1 g1 a ->
  (forall a', Q1 a' -> exists b', canGiveE (Q2 a') (g2 a') b') -> canGiveE (Q2 a) (g2 a) b -> canGiveE (fun p => Q1 (fst p) /\ Q2 (fst p) (snd p)) (dependency g1 g2) (a, b).
Proof. intros T U g1 g2 Q1 Q2 a b H1 H2 H3. apply (dependent_given T U (T * U) g1 g2 _ (fun t u => (t, u)) Q1 Q2); auto. Qed.
Lemma bounded : forall n x, 0 <= x <= n -> n <= 100 -> canGiveE (fun v => 0 <= v <= n) (liftGen (interval TI32 0 n)) x.
Proof. intros n x H1 H2. apply lift_given, number_within; cbn; try lia. intros [X _]. discriminate. Qed.
Example C75_dependency_ex : canGiveE (fun p => 0 <= fst p <= 100 /\ 0 <= snd p <= fst p) (dependency (liftGen (interval TI32 0 100)) (fun n => liftGen (interval TI32 0 n))) (30, 17).
Proof. apply (C75_dependency Z Z _ _ (fun v => 0 <= v <= 100) (fun n v => 0 <= v <= n)); [apply bounded; lia| |apply bounded; lia]. intros n Hn. exists 0. apply bounded; lia. Qed.
Theorem C75_derive : forall T U (g1 : egen replay T) (g2 : T -> egen replay U) (Q1 : T -> Prop) (Q : U -> Prop) a b, canGiveE Q1 g1 a ->
  (forall a', Q1 a' -> exists b', canGiveE Q (g2 a') b') -> canGiveE Q (g2 a) b -> canGiveE Q (derive g1 g2) b.
Proof. intros T U g1 g2 Q1 Q a b H1 H2 H3. apply (dependent_given T U U g1 g2 snd (fun _ u => u) Q1 (fun _ => Q) Q a b); auto. Qed.
Example C75_derive_ex : canGiveE (fun v => 0 <= v <= 100) (derive (liftGen (interval TI32 50 100)) (fun n => liftGen (interval TI32 0 n))) 17.
Proof.
  apply (C75_derive Z Z _ _ (fun v => 50 <= v <= 100) _ 60).
  - apply lift_given, number_within; cbn; try lia. intros [X _]. discriminate.
  - intros n Hn. exists 0. destruct (bounded n 0) as (l & x & R & S & Y); [lia|lia|]. exists l, x. split; [exact R|]. split; [|exact Y]. eapply spine_weaken; [|exact S]. cbn. intros. lia.
  - destruct (bounded 60 17) as (l & x & R & S & Y); [lia|lia|]. exists l, x. split; [exact R|]. split; [|exact Y]. eapply spine_weaken; [|exact S]. cbn. intros. lia.
Qed.
Theorem C75_chain : forall V (g1 : egen replay V) (g2 : V -> egen replay V) (g3 : list V -> egen replay V) (Q1 : V -> Prop) (Q2 : V -> V -> Prop) (Q3 : list V -> V -> Prop) a b c,
  canGiveE Q1 g1 a -> (forall a', Q1 a' -> exists b', canGiveE (Q2 a') (g2 a') b') -> canGiveE (Q2 a) (g2 a) b ->
  canGiveE (fun t => exists a b, t = [a; b] /\ Q1 a /\ Q2 a b) (chain g1 g2) [a; b] /\
  ((forall a' b', Q1 a' -> Q2 a' b' -> exists c', canGiveE (Q3 [a'; b']) (g3 [a'; b']) c') -> canGiveE (Q3 [a; b]) (g3 [a; b]) c ->
   canGiveE (fun t => exists a b c, t = [a; b; c] /\ Q1 a /\ Q2 a b /\ Q3 [a; b] c) (chainMore (chain g1 g2) g3) [a; b; c]).
Proof.
  intros V g1 g2 g3 Q1 Q2 Q3 a b c H1 H2 H3. assert (C : canGiveE (fun t => exists a b, t = [a; b] /\ Q1 a /\ Q2 a b) (chain g1 g2) [a; b]).
  { apply (dependent_given V V (list V) g1 g2 _ (fun t u => [t; u]) Q1 Q2); eauto. }
  split; [exact C|]. intros H4 H5. apply (dependent_given (list V) V (list V) _ g3 (fun p => emake (fst p ++ [eroot (snd p)])) (fun t u => t ++ [u]) (fun t => exists a b, t = [a; b] /\ Q1 a /\ Q2 a b) Q3 _ [a; b] c); auto.
  - intros t u (a' & b' & -> & Ha & Hb) Hu. exists a', b', u. auto.
  - intros t (a' & b' & -> & Ha & Hb). apply H4; auto.
Qed.
Example C75_chain_ex : exists Q, canGiveE Q (chainMore (chain (liftGen (interval TI32 0 100)) (fun n => liftGen (interval TI32 0 n))) (fun t => liftGen (interval TI32 0 (hd 0 t)))) [30; 17; 25].
Proof.
  eexists. apply (C75_chain Z (liftGen (interval TI32 0 100)) (fun n => liftGen (interval TI32 0 n)) (fun t => liftGen (interval TI32 0 (hd 0 t))) (fun v => 0 <= v <= 100) (fun n v => 0 <= v <= n) (fun t v => 0 <= v <= hd 0 t) 30 17 25).
  - apply bounded; lia.
  - intros n Hn. exists 0. apply bounded; lia.
  - apply bounded; lia.
  - intros n m Hn Hm. exists 0. apply (bounded n); lia.
  - apply (bounded 30); lia.
Qed.
(** aggregate: the last of any chain whose number of steps is in range; accumulate: any chain whose length is. *)
Theorem C75_aggregate : forall T (Q : T -> Prop) (g1 : egen replay T) (g2 : T -> egen replay T) mn mx x xs, (forall a, Q a -> exists b, canGiveE Q (g2 a) b) ->
  canGiveE Q g1 x -> linked (fun a b => canGiveE Q (g2 a) b) x xs -> 0 <= mn -> mn <= size xs <= mx -> mx <= UINT64_MAX -> canGiveE Q (aggregate g1 g2 mn mx) (last xs x).
Proof. intros. apply aggregate_given; auto. Qed.
Example C75_aggregate_ex : canGiveE (fun v => 0 <= v <= 100) (aggregate (liftGen (interval TI32 0 100)) (fun n => liftGen (interval TI32 (n / 2) 100)) 1 3) 12.
Proof.
  assert (St : forall n x, 0 <= n <= 100 -> n / 2 <= x <= 100 -> canGiveE (fun v => 0 <= v <= 100) (liftGen (interval TI32 (n / 2) 100)) x).
  { intros n x Hn Hx. assert (0 <= n / 2) by (apply Z.div_pos; lia). destruct (number_within TI32 (n / 2) 100 x) as (l & t & R & Q & Y); cbn; try lia; [intros [X _]; discriminate|].
    apply lift_given. exists l, t. split; [exact R|]. split; [|exact Y]. intros u Hu. specialize (Q u Hu). cbn in Q. lia. }
  apply (C75_aggregate Z (fun v => 0 <= v <= 100) _ _ 1 3 40 [20; 12]); cbn [size length]; try (unfold size, UINT64_MAX; cbn; lia).
  - intros a Ha. exists 100. apply St; [lia|]. assert (a / 2 <= 100) by (apply Z.div_le_upper_bound; lia). lia.
  - apply bounded; lia.
  - cbn [linked]. split; [apply St; [lia|cbn; lia]|]. split; [apply St; [lia|cbn; lia]|exact I].
Qed.
Theorem C75_accumulate : forall T (Q : T -> Prop) (g1 : egen replay T) (g2 : T -> egen replay T) mn mx v, (exists x, canGiveE Q g1 x) -> (forall a, Q a -> exists b, canGiveE Q (g2 a) b) ->
  match v with [] => True | x :: xs => canGiveE Q g1 x /\ linked (fun a b => canGiveE Q (g2 a) b) x xs end -> 0 <= mn -> mn <= size v <= mx -> mx <= INT64_MAX ->
  canGiveE (Forall Q) (accumulate g1 g2 mn mx) v.
Proof. intros. apply accumulate_given; auto. Qed.
Example C75_accumulate_ex : canGiveE (Forall (fun v => 0 <= v <= 100)) (accumulate (liftGen (interval TI32 0 100)) (fun n => liftGen (interval TI32 0 n)) 0 5) [40; 20; 20; 0].
Proof.
  assert (St : forall n x, 0 <= x <= n -> n <= 100 -> canGiveE (fun v => 0 <= v <= 100) (liftGen (interval TI32 0 n)) x).
  { intros n x Hx Hn. destruct (bounded n x Hx Hn) as (l & t & R & S & Y). exists l, t. split; [exact R|]. split; [|exact Y]. eapply spine_weaken; [|exact S]. cbn. intros. lia. }
  apply (C75_accumulate Z (fun v => 0 <= v <= 100)); try (unfold size, INT64_MAX; cbn; lia).
  - exists 0. apply bounded; lia.
  - intros a Ha. exists 0. apply St; lia.
  - cbn [linked]. split; [apply bounded; lia|]. repeat split; apply St; lia.
Qed.
Theorem C75_construct : forall V A (gs : list (xgen replay V)) ord (ctor : list V -> A + err) vs a, order (length gs) ord -> Forall2 canGiveX gs vs -> ctor vs = inl a -> canGiveX (construct ord gs ctor) a.
Proof.
  intros V A gs ord ctor vs a O F C. destruct (all_given _ _ eroot _ _ F) as (xs & ls & M & L & H). pose proof (in_any_order _ _ xs (fun i => nth i ls []) L H ord O) as Y.
  exists (flat_map (fun i => nth i ls []) ord ++ []), (emake a). split; [reflexivity|]. unfold construct. eapply yields_bind; [exact Y|]. cbv iota. rewrite M, C. apply yields_ret.
Qed.
Lemma anInt_gives : forall x, 0 <= x <= 99 -> canGiveX anInt x.
Proof. intros x H. exists [x], (elift (halves 7 x)). split; [reflexivity|]. apply (yields_map _ _ _ (fun z => inl (elift (halves 7 z)))), yields_draw. exact H. Qed.
Example C75_construct_ex : canGiveX (construct [1; 0]%nat [anInt; anInt] (fun l => match l with [x; y] => if x <? y then inl (10 * x + y) else inr EInvalidArgument | _ => inr ERuntime end)) 25.
Proof. apply (C75_construct Z Z) with (vs := [2; 5]); [apply perm_swap| |reflexivity]. repeat constructor; apply anInt_gives; lia. Qed.

(** * Finding failures *)
(** Whatever arguments the generators can produce, if the property fails on them then some sequence of random numbers makes forAll find that
    failure in its first run. *)
Theorem C75_found : forall V W (P : property replay V W) beh args why, pure_property P beh -> no_leak beh -> maxDurationMs P = 0 -> tame P -> (0 < numRuns P)%nat ->
  Forall2 canGiveX (gens P) args -> judge (beh args) = JFail why ->
  forall oc, order (length (gens P)) oc -> exists l : list Z, forall (ev : env replay) (rest : list Z), ord_call ev = oc -> seeded ev (seed P) = l ++ rest ->
    (forall r, exists ts r1, evalTuple (ord_regen ev) (gens P) r = Ok (inl ts, r1) /\ Forall etotal ts) ->
    order (length (gens P)) (ord_shrinks ev) -> order (length (gens P)) (ord_each ev) ->
    forall w, exists rep s', runForAll 1 ev P w = Ok (VFalsified 1 why rep, s').
Proof.
  intros V W P beh args why HP Hl Ht Htame Hn F Hj oc Ho. destruct (all_given _ _ eroot _ _ F) as (xs & ls & M & L & H). pose proof (in_any_order _ _ xs (fun i => nth i ls []) L H oc Ho) as Y.
  exists (flat_map (fun i => nth i ls []) oc). intros ev rest Eo Es Hreg O1 O2 w.
  apply (C32_false_back replay V W ev P beh w [] args rest why); auto.
  rewrite Es. cbn [app]. rewrite <- M. econstructor; [rewrite Eo; apply Y|constructor].
Qed.
Example C75_found_ex : exists l : list Z, forall w, exists rep s', runForAll 1 (inOrder 1 (l ++ [])) (prop1 f1 1 2) w = Ok (VFalsified 1 RFalse rep, s').
Proof.
  destruct (C75_found Z unit (prop1 f1 1 2) f1 [50] RFalse) with (oc := [0]%nat) as (l & H); auto using prop1_pure, f1_no_leak.
  - split; [|split; intros ? ?; discriminate]. intros a u. simpl. unfold f1. destruct a as [|x [|y a]]; try discriminate. destruct (x =? 4)%Z; try discriminate. destruct (Z.odd x); discriminate.
  - cbn. lia.
  - constructor; [apply anInt_gives; lia|constructor].
  - apply Permutation_refl.
  - exists l. intros w. apply H with (rest := []); try reflexivity; [apply anInt_ok|apply Permutation_refl|apply Permutation_refl].
Qed.

Print Assumptions C75_integers.
Print Assumptions C75_types.
Print Assumptions C75_char_refuted.
Print Assumptions C75_bool.
Print Assumptions C75_floats.
Print Assumptions C75_vector.
Print Assumptions C75_string.
Print Assumptions C75_set.
Print Assumptions C75_map.
Print Assumptions C75_pair.
Print Assumptions C75_tuple.
Print Assumptions C75_nullable.
Print Assumptions C75_shared_ptr.
Print Assumptions C75_transform.
Print Assumptions C75_filter.
Print Assumptions C75_one_of.
Print Assumptions C75_element_of.
Print Assumptions C75_intervals.
Print Assumptions C75_unicode.
Print Assumptions C75_encoded.
Print Assumptions C75_dependency.
Print Assumptions C75_derive.
Print Assumptions C75_chain.
Print Assumptions C75_aggregate.
Print Assumptions C75_accumulate.
Print Assumptions C75_construct.
Print Assumptions C75_found.
