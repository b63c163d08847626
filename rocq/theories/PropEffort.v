(** C82: how often shrinking calls the property, whatever the property does. *)
From Coq Require Import String List ZArith Lia Bool Permutation SpecFloat.
From Verif Require Import Base TreeModel TreeSpec TreeProof RandomModel TupleModel TupleProof BinSearchProof IntegralModel IntegralSpec IntegralProof
  BoolModel ListModel ListSpec ListProof ListMainProof StringModel StringProof ContainerModel ContainerSpec ContainerProof GenModel GenSpec GenProof TupleGenModel PointerModel
  Utf8Model Cesu8Model Utf16Model UtfSpec UtfProof Utf16Proof UnicodeGenModel UnicodeGenProof
  EffModel EffSpec EffProof ContextModel ContextSpec ContextProof RunnerModel RunnerSpec RunnerProof RunnerShrinkProof
  SearchSpec SearchProof ListSearchSpec ListSearchProof MinimalSpec MinimalProof PropList PropContainer PropGen PropRun PropSearch PropListSearch PropUnicode
  StatefulModel StatefulProof ActionsProof PropStateful PropActions EffortSpec EffortProof.
Import ListNotations.
Local Open Scope list_scope.

(** * C82: the number of calls made by shrinking, whatever the property does *)

(** ** Trees and generators *)

(** Every tree has a longest search, and a greedy search decided by values ([scan], C66) is one of the searches counted here. *)
Theorem C82_worst : forall A (t : tree A), exists k, worst k t.
Proof. intros A t. exists (longest t). split; [apply within_iff; auto|apply costs_search_t]. Qed.
Theorem C82_scan : forall A (t : tree A) fails tried found, scan fails (shrinks t) tried found -> search (shrinks t) (length tried).
Proof. intros A t fails tried found H. induction H; cbn [length]; [constructor|apply search_pass|apply search_fail]; auto. Qed.

(** The tree of 100 among 0..100: a search tries at most 8 numbers, and some search tries 8.  The one that looks for a boundary at 60 tries 7. *)
Definition tree100 : tree Z := match generateInteger (E := replay) TI32 0 100 [100%Z] with Ok (t, _) => t | _ => make_shrinkable 0%Z end.
Lemma tree100_longest : longest tree100 = 8%nat.
Proof. vm_compute. auto. Qed.
Example C82_worst_ex : root tree100 = 100%Z /\ map root (shrinks tree100) = [0; 50; 75; 87; 93; 96; 98; 99]%Z /\ worst 8 tree100.
Proof.
  split; [vm_compute; auto|]. split; [vm_compute; auto|]. split; [apply within_iff; rewrite tree100_longest; auto|].
  rewrite <- tree100_longest. apply costs_search_t.
Qed.
Example C82_scan_ex : exists tried found, scan (fun x => 60 <= x)%Z (shrinks tree100) tried found /\ tried = [0; 50; 75; 62; 56; 59; 60]%Z /\ option_map root found = Some 60%Z.
Proof.
  eexists. eexists. split; [|split].
  - unfold tree100. vm_compute (shrinks _).
    repeat match goal with
    | |- scan _ [] _ _ => apply scan_end
    | |- scan _ (?c :: ?cs) _ _ => first [apply scan_fail; [cbn [root]; lia|cbn [shrinks]]|apply scan_pass; [cbn [root]; lia|]]
    end.
  - reflexivity.
  - reflexivity.
Qed.

(** The longest searches of the components of a pair or tuple add up; transformation of the values makes no difference. *)
Lemma worst_iff : forall A k (t : tree A), worst k t <-> longest t = k.
Proof.
  intros A k t. split.
  - intros [H1 H2]. apply within_iff in H1. apply search_costs in H2. rewrite <- longest_eq in H2. lia.
  - intros <-. split; [apply within_iff; auto|apply costs_search_t].
Qed.
Theorem C82_pair : forall A B (t : tree A) (e : tree B) j k, worst j t -> worst k e -> worst (j + k) (shrinkPair t e).
Proof. intros A B t e j k. rewrite !worst_iff. intros <- <-. apply longest_pair. Qed.
Theorem C82_tuple : forall U (es : list (tree U)) ks, Forall2 worst ks es -> worst (list_sum ks) (shrinkTuple es).
Proof.
  intros U es ks H. rewrite worst_iff, longest_tuple. f_equal. induction H as [|k e ks es H _ IH]; auto. simpl. rewrite IH. apply worst_iff in H. rewrite H. auto.
Qed.
Theorem C82_map : forall A B (f : A -> B) t k, worst k t -> worst k (map_tree f t).
Proof. intros A B f t k. rewrite !worst_iff, longest_map. auto. Qed.
(** 8 calls for 100, one for [true]: 9 for the pair, 17 for 100 twice and [true]. *)
Lemma worst100 : worst 8 tree100.
Proof. apply worst_iff, tree100_longest. Qed.
Lemma worstTrue : worst 1 (shrinkBool true).
Proof. apply worst_iff. reflexivity. Qed.
Example C82_pair_ex : worst 9 (shrinkPair tree100 (shrinkBool true)).
Proof. exact (C82_pair _ _ _ _ _ _ worst100 worstTrue). Qed.
Example C82_tuple_ex : worst 17 (shrinkTuple [tree100; tree100; map_tree (fun b : bool => if b then 1 else 0)%Z (shrinkBool true)]).
Proof. apply (C82_tuple _ _ [8; 8; 1]%nat). constructor; [exact worst100|]. constructor; [exact worst100|]. constructor; [apply C82_map; exact worstTrue|constructor]. Qed.
Example C82_map_ex : worst 8 (map_tree Z.opp tree100) /\ root (map_tree Z.opp tree100) = (-100)%Z.
Proof. split; [apply C82_map; exact worst100|vm_compute; auto]. Qed.


(** Integers of a range of at most 2^k + 1 values take at most k + 1 calls; bool one, constants none; pairs and tuples as many as their components together; transforming and
    filtering adds nothing; Nullable and shared_ptr as many as the value pointed to. *)
Theorem C82_generators : forall E : engine,
  (forall ty min max k, usable ty min max -> (max - min <= 2 ^ Z.of_nat k)%Z -> effort (E := E) (S k) (generateInteger ty min max)) /\
  (forall p, effort (E := E) 1 (arbi_bool p)) /\ (forall A (a : A), effort (E := E) 0 (just a)) /\ (forall A (f : G E A), effort 0 (lazyGen f)) /\
  (forall A B fb (g1 : gen E A) (g2 : gen E B) j k, effort j g1 -> effort k g2 -> effort (j + k) (pairOf fb g1 g2)) /\
  (forall U ord (gs : list (gen E U)) ks, Forall2 effort ks gs -> effort (list_sum ks) (tupleOf ord gs)) /\
  (forall A B (g : gen E A) (f : A -> B) k, effort k g -> effort k (transformGen g f)) /\
  (forall A fuel (g : gen E A) crit k, effort k g -> effort k (filterGen fuel g crit)) /\
  (forall A (g : gen E A) self k, effort k g -> effort k (arbi_nullable g self) /\ effort k (arbi_shared_ptr g self)).
Proof.
  intros E. split.
  { intros ty min max k Hu Hk r t r' H. apply tries_within; [|eapply integer_trying; eauto].
    destruct (generateInteger_shape _ _ _ _ _ _ _ Hu H) as [v [Hv E1]]. rewrite E1 in *. rewrite values_map.
    apply NoDup_map_inj; [intros a b; cbv beta; destruct (_ <=? v)%Z; lia|]. destruct Hu as [U1 [U2 [U3 U4]]].
    assert (Hd : (0 <= Z.abs (v - nearest_zero min max) <= Base.UINT64_MAX)%Z).
    { pose proof (tmin_64 ty). pose proof (tmax_64 ty). unfold nearest_zero, INT64_MIN, Base.UINT64_MAX in *.
      split; [lia|]. destruct (is_signed ty) eqn:Es; [pose proof (tmax_s64 ty Es); unfold INT64_MAX in *; lia|]. unfold tmin in U1. rewrite Es in U1. lia. }
    eapply Permutation_NoDup; [symmetry; apply bs_abs_values; auto|]. constructor; [rewrite zrange_In; lia|apply zrange_NoDup]. } split.
  { intros p r t r' H. apply gbind_ok in H. destruct H as [b [r1 [_ H]]]. inversion H; subst. apply within_iff. destruct b; cbn; lia. } split.
  { intros A a r t r' H. inversion H; subst. apply within_iff. auto. } split.
  { intros A f r t r' H. apply gbind_ok in H. destruct H as [a [r1 [_ H]]]. inversion H; subst. apply within_iff. auto. } split.
  { intros A B fb g1 g2 j k H1 H2 r t r' H. unfold pairOf in H. destruct fb; apply gbind_ok in H; destruct H as [a [r1 [G1 H]]]; apply gbind_ok in H; destruct H as [b [r2 [G2 H]]];
      inversion H; subst; apply within_iff; rewrite longest_pair; apply Nat.add_le_mono; apply within_iff; eauto. } split.
  { intros U ord gs ks HM r t r' H. unfold tupleOf in H. apply gbind_ok in H. destruct H as [[es|e] [r1 [H1 H]]]; [|discriminate]. inversion H; subst.
    apply within_iff. rewrite longest_tuple. apply evalTuple_ok in H1. destruct H1 as [L R]. rewrite map_length in L.
    assert (Hk : forall i e, nth_error es i = Some e -> exists g q q', nth_error gs i = Some g /\ g q = Ok (e, q')).
    { intros i e Hi. destruct (R i e Hi) as [f [q [q' [F1 F2]]]]. unfold gen in *. rewrite nth_error_map in F1. destruct (nth_error gs i) as [g|] eqn:Eg; cbn [option_map] in F1; [|discriminate].
      inversion F1; subst f. apply gbind_ok in F2. destruct F2 as [u [q1 [F2 F3]]]. inversion F3; subst. exists g, q, q'. auto. }
    clear -HM Hk L. revert es L Hk. induction HM as [|le g les gs Hg HM IH]; intros [|e es] L Hk; simpl in L; try discriminate; [simpl; auto|].
    assert (He : (longest e <= le)%nat) by (destruct (Hk 0%nat e eq_refl) as [g' [q [q' [G1 G2]]]]; inversion G1; subst; apply within_iff; eapply Hg; eauto).
    assert (Hr : (list_sum (map longest es) <= list_sum les)%nat) by (apply IH; [lia|]; intros i x Hi; apply (Hk (S i) x Hi)).
    cbn [map list_sum fold_right]. unfold list_sum in Hr. lia. } split.
  { intros A B g f k HM r t r' H. apply gbind_ok in H. destruct H as [u [r1 [H1 H]]]. inversion H; subst. apply within_iff. rewrite longest_map. apply within_iff. eauto. } split.
  { intros A fuel g crit k HM. induction fuel as [|fuel IH]; intros r t r' H; [discriminate|]. cbn [filterGen] in H. apply gbind_ok in H. destruct H as [u [r1 [H1 H]]].
    destruct (crit (root u)); [|eapply IH; eauto]. unfold gfail in H. destruct (filter_tol (tnodes u) crit 1 u) as [v| | |] eqn:Ef; try discriminate. inversion H; subst.
    apply longest_filter in Ef. apply within_iff. etransitivity; [exact Ef|]. apply within_iff. eauto. }
  intros A g self k HM. split; intros r t r' H.
  - unfold arbi_nullable in H. apply gbind_ok in H. destruct H as [b [r1 [_ H]]]. destruct b; [|inversion H; subst; apply within_iff; cbn; lia].
    apply gbind_ok in H. destruct H as [u [r2 [H1 H]]]. inversion H; subst. apply within_iff. rewrite longest_mapShrinkable. apply within_iff. eauto.
  - apply gbind_ok in H. destruct H as [u [r2 [H1 H]]]. inversion H; subst. apply within_iff. rewrite longest_map. apply within_iff. eauto.
Qed.
(** A number from 0 to 100 takes at most 8 calls, an even one too, a pair of it with a bool 9. *)
Definition int100 : gen replay Z := generateInteger TI32 0 100.
Lemma int100_effort : effort 8 int100.
Proof. apply (proj1 (C82_generators replay)); [unfold usable, tmin, tmax; cbn; lia|cbn; lia]. Qed.
Example C82_generators_ex : effort 8 (filterGen 5 int100 Z.even) /\ effort 9 (pairOf true int100 (arbi_bool d_095)) /\
  match filterGen 5 int100 Z.even [99; 100]%Z with Ok (t, _) => root t = 100%Z /\ map root (shrinks t) = [0; 50; 62; 78; 90; 96; 98]%Z | _ => False end.
Proof.
  destruct (C82_generators replay) as [_ [H2 [_ [_ [H5 [_ [_ [H8 _]]]]]]]]. split; [apply H8; exact int100_effort|]. split; [apply (H5 _ _ true _ _ 8 1)%nat; [exact int100_effort|apply H2]|].
  vm_compute. auto.
Qed.


(** Shrinkable::filter with tolerance 1, what generators use, never lengthens a search.  With tolerance 2 it can: for the multiples of 3 plus 1, 12 calls instead of 8. *)
Theorem C82_filter : forall A (crit : A -> bool) fuel t t' k, filter_tol fuel crit 1 t = Ok t' -> within k t -> within k t'.
Proof. intros A crit fuel t t' k H Hk. apply longest_filter in H. apply within_iff in Hk. apply within_iff. lia. Qed.
Example C82_filter_ex : exists t', filter_tol 500 Z.even 1 tree100 = Ok t' /\ within 8 tree100 /\ root t' = 100%Z.
Proof.
  destruct (filter_tol 500 Z.even 1 tree100) as [t'| | |] eqn:E; [|exfalso; assert (X : match filter_tol 500 Z.even 1 tree100 with Ok _ => True | _ => False end) by (vm_compute; exact I);
    rewrite E in X; exact X..].
  exists t'. split; [reflexivity|]. split; [exact (proj1 worst100)|].
  assert (X : match filter_tol 500 Z.even 1 tree100 with Ok t => root t = 100%Z | _ => False end) by (vm_compute; reflexivity). rewrite E in X. exact X.
Qed.
Theorem C82_filter_tolerance_refuted : ~ (forall A (crit : A -> bool) tol fuel t t' k, filter_tol fuel crit tol t = Ok t' -> within k t -> within k t').
Proof.
  intros H. pose proof (H Z (fun x => x mod 3 =? 1)%Z 2%Z 500%nat tree100) as X. clear H.
  assert (L : match filter_tol 500 (fun x => x mod 3 =? 1)%Z 2 tree100 with Ok t => longest t = 12%nat | _ => False end) by (vm_compute; reflexivity).
  destruct (filter_tol 500 (fun x => x mod 3 =? 1)%Z 2 tree100) as [t'| | |]; try contradiction.
  specialize (X t' 8%nat eq_refl (proj1 worst100)). apply within_iff in X. rewrite L in X. lia.
Qed.

(** Containers of at most 2^k elements.  Sets: (k + 1)(mx + 1).  Maps: k + 1, when mx - mn is at most 2^k.  Strings: 2(k + 1) in the same case.  Vectors and lists: what sets take, and in
    addition what the elements would take one by one, although the elements are shrunk together. *)
Theorem C82_containers : forall E : engine,
  (forall A fuel lt (g : gen E A) mn mx k, strict_order lt -> (0 <= mn <= mx)%Z -> (mx <= Base.UINT32_MAX)%Z -> (mx <= 2 ^ Z.of_nat k)%Z ->
     effort (S k * S (Z.to_nat mx)) (arbi_set fuel lt g {| minSize := mn; maxSize := mx |})) /\
  (forall K T fuel lt (g1 : gen E K) (g2 : gen E T) mn mx k, strict_order lt -> (0 <= mn <= mx)%Z -> (mx <= Base.UINT32_MAX)%Z -> (mx - mn <= 2 ^ Z.of_nat k)%Z ->
     effort (S k) (arbi_map fuel lt g1 g2 {| minSize := mn; maxSize := mx |})) /\
  (forall A (g : gen E A) mn mx k, (0 <= mn <= mx)%Z -> (mx <= Base.UINT32_MAX)%Z -> (mx - mn <= 2 ^ Z.of_nat k)%Z ->
     effort (2 * S k) (arbi_string g {| minSize := mn; maxSize := mx |})) /\
  (forall A (g : gen E A) mn mx k j, (0 <= mn <= mx)%Z -> (mx <= Base.UINT32_MAX)%Z -> (mx <= 2 ^ Z.of_nat k)%Z -> effort j g ->
     effort (S k * S (Z.to_nat mx) + Z.to_nat mx * j) (arbi_vector g {| minSize := mn; maxSize := mx |})).
Proof.
  intros E. split.
  { intros A fuel lt g mn mx k Hso H0 H2 Hk r t r' H. apply arbi_set_tree in H; auto. destruct H as [Hsz Ht]. rewrite Ht. apply within_iff. unfold size in Hsz.
    etransitivity; [apply (longest_mtree _ (root t) (Z.to_nat mn) k); [apply u32_int64; unfold size; lia|lia|lia]|]. apply Nat.mul_le_mono_l. lia. } split.
  { intros K T fuel lt g1 g2 mn mx k Hso H0 H2 Hk r t r' H. apply arbi_map_tree in H; auto. destruct H as [Hsz Ht]. rewrite Ht. apply within_iff.
    unfold prefixTree. rewrite longest_map. apply longest_bs; unfold size, Base.UINT64_MAX, Base.UINT32_MAX in *; lia. } split.
  { intros A g mn mx k H0 H2 Hk r t r' H. apply arbi_string_tree in H; auto. destruct H as [Hsz Ht]. rewrite Ht. apply within_iff.
    apply longest_str; unfold size, Base.UINT64_MAX, Base.UINT32_MAX in *; lia. }
  intros A g mn mx k j H0 H2 Hk Hg r t r' H. destruct (C22_vector E A g mn mx r) as [n [r1 [_ [Hn Hiff]]]]; try lia. apply Hiff in H. destruct H as [vec [D1 [D2 [D3 _]]]].
  assert (Hs : (size vec <= INT64_MAX)%Z) by (rewrite D2; apply u32_int64; lia). unfold size in D2.
  rewrite <- (Z2Nat.id mn) in D3 by lia. apply within_iff. etransitivity; [eapply (longest_listlike _ vec (Z.to_nat mn) t k); auto; lia|].
  apply Nat.add_le_mono; [apply Nat.mul_le_mono_l; lia|].
  assert (Hv : (list_sum (map longest vec) <= length vec * j)%nat).
  { clear -D1 Hg. induction D1 as [|q a q1 l q2 G D IH]; [simpl; auto|]. apply Hg, within_iff in G. cbn [map list_sum fold_right length]. unfold list_sum in IH. lia. }
  etransitivity; [exact Hv|]. apply Nat.mul_le_mono_r. lia.
Qed.
(** Up to 6 digits: 28 calls for a set, 5 or less for a map from 2 to 6 entries, 8 for a string, 58 for a vector.  For the vector 9, 8, 7, 6 it is 17 in truth. *)
Lemma digit_effort : effort 5 digit.
Proof. apply (proj1 (C82_generators replay)); [unfold usable, tmin, tmax; cbn; lia|cbn; lia]. Qed.
Lemma vec67_effort : effort 58 vec67.
Proof.
  apply (proj2 (proj2 (proj2 (C82_containers replay))) _ digit 1 6 3%nat 5%nat)%Z; [lia|unfold Base.UINT32_MAX; lia|lia|exact digit_effort].
Qed.
Example C82_containers_ex : effort 28 set67 /\ effort 3 (arbi_map 10 Z.ltb digit digit {| minSize := 2; maxSize := 6 |}) /\ effort 8 str67 /\ effort 58 vec67 /\
  match vec67 [4; 9; 8; 7; 6]%Z with Ok (t, _) => root t = [9; 8; 7; 6]%Z /\ worst 17 t | _ => False end.
Proof.
  destruct (C82_containers replay) as [H1 [H2 [H3 _]]].
  split; [apply (H1 _ 10%nat Z.ltb digit 0 6 3%nat)%Z; [exact C23_Zltb|lia|unfold Base.UINT32_MAX; lia|lia]|].
  split; [apply (H2 _ _ 10%nat Z.ltb digit digit 2 6 2%nat)%Z; [exact C23_Zltb|lia|unfold Base.UINT32_MAX; lia|lia]|].
  split; [apply (H3 _ digit 0 6 3%nat)%Z; [lia|unfold Base.UINT32_MAX; lia|lia]|]. split; [exact vec67_effort|].
  destruct (vec67 _) as [[t r]| | |] eqn:E; try (vm_compute in E; discriminate). rewrite worst_iff.
  assert (X : match vec67 [4; 9; 8; 7; 6]%Z with Ok (t, _) => root t = [9; 8; 7; 6]%Z /\ longest t = 17%nat | _ => False end) by (vm_compute; auto).
  rewrite E in X. exact X.
Qed.

(** Unicode strings of scalar values: the same as strings. *)
Theorem C82_encoded : forall co enc, In (co, enc) forms -> forall E (elemGen : gen E Z) mn mx k,
  (0 <= mn <= mx)%Z -> (6 * mx + 2 < 2 ^ 31)%Z -> (mx - mn <= 2 ^ Z.of_nat k)%Z -> (forall r t r', elemGen r = Ok (t, r') -> scalar (root t)) ->
  effort (2 * S k) (arbi_encoded co elemGen {| minSize := mn; maxSize := mx |}).
Proof.
  intros co enc Hf E g mn mx k H0 H2 Hk Hg r t r' H. pose proof (forms_exact co enc Hf) as CE.
  destruct (draw_ok E mn mx r ltac:(lia)) as [n [r1 [Hd Hn]]]. unfold arbi_encoded in H.
  rewrite (gbind_eq _ _ _ _ _ _ n r1) in H by (rewrite containerSize_eq; auto; unfold Base.UINT32_MAX; lia).
  apply gbind_ok in H. destruct H as [[chars positions] [r2 [Hl Ha]]].
  pose proof (encodeLoop_inv co _ _ _ _ _ _ _ _ Hl) as [vec [Hv [Hlv _]]].
  assert (Hc : Forall scalar (map root vec)) by (apply Forall_map; clear -Hv Hg; induction Hv; constructor; eauto).
  assert (Hlen : Z.of_nat (length (map root vec)) = n) by (rewrite map_length; lia).
  pose proof (bytes_le co enc CE (map root vec) Hc) as Hb. pose proof (ce_end co enc CE) as He.
  assert (Hs : (bsize (flat_map enc (map root vec) ++ co_end co) < 2 ^ 31)%Z).
  { rewrite bsize_app. unfold bsize in *. lia. }
  assert (Hs' : (bsize (flat_map enc (map root vec)) < 2 ^ 31)%Z) by (rewrite bsize_app in Hs; unfold bsize in *; lia).
  pose proof (encodeLoop_ok co enc CE E g (Z.to_nat n) [] r1 vec r2 Hc ltac:(lia) Hv Hs') as El.
  cbn [app length seq map flat_map] in El. rewrite El in Hl. inversion Hl; subst chars positions. clear Hl El. cbv beta iota in Ha.
  destruct (ce_valid co enc CE (map root vec) Hc Hs) as [b Hb']. erewrite gbind_eq in Ha by (unfold gfail; rewrite Hb'; reflexivity). cbn [fst minSize] in Ha.
  unfold gfail in Ha. rewrite <- (Z2Nat.id mn), <- Hlen in Ha by lia. rewrite (shrinkStringLike_ok co enc CE) in Ha by (auto; lia). inversion Ha; subst t.
  apply within_iff. rewrite longest_map. rewrite map_length in *. apply longest_str; unfold size, Base.UINT64_MAX; rewrite map_length; lia.
Qed.
Example C82_encoded_ex : effort 8 (arbi_encoded utf8_coding (unicodeGen (E := replay) 5) {| minSize := 0; maxSize := 8 |}).
Proof.
  apply (C82_encoded utf8_coding utf8 ltac:(left; reflexivity) replay (unicodeGen 5) 0 8 3%nat)%Z; [lia|lia|cbn; lia|].
  intros r t r' H. apply C55_unicode in H. unfold scalar. destruct H as [H|H]; apply gi_range in H; lia.
Qed.

(** Alternatives take as many calls as the worst of them. *)
Theorem C82_oneOf : forall E A (gws : list (weighted E A)) (gs : list (gen E A)) g k fuel, (0 < length gws)%nat -> (Z.of_nat (length gws) <= Base.UINT32_MAX + 1)%Z ->
  map fst gws = map no_discard gs -> Forall (effort k) gs -> oneOf gws = Ok g -> effort k (g fuel).
Proof.
  intros E A gws gs g k fuel H0 H1 Hg HM Ho r t r' H.
  assert (Hw : exists ws, oneOfWeights (map snd gws) = Ok ws) by (unfold oneOf in Ho; destruct (oneOfWeights (map snd gws)); try discriminate; eauto).
  destruct Hw as [ws Hw]. destruct (proj1 (C25_first_accepted _ _ _ _ _ H0 H1 Ho Hw r t r')) as [i [gi [l [q1 [q2 [_ [Hn [_ [_ Hi]]]]]]]]]; [eauto|].
  rewrite Hg, nth_error_map in Hn. destruct (nth_error gs i) as [g0|] eqn:Eg; [|discriminate]. simpl in Hn. inversion Hn; subst gi.
  apply gbind_ok in Hi. destruct Hi as [u [q3 [Hi Hx]]]. inversion Hx; subst. rewrite Forall_forall in HM. apply nth_error_In in Eg. eapply HM; eauto.
Qed.
(** A digit or a number up to 100. *)
Example C82_oneOf_ex : exists g, oneOf (E := replay) [(no_discard digit, d_half); (no_discard int100, d_half)] = Ok g /\ effort 8 (g 5%nat).
Proof.
  eexists. split; [reflexivity|].
  apply (C82_oneOf replay Z [(no_discard digit, d_half); (no_discard int100, d_half)] [digit; int100] _ 8 5); [cbn [length]; lia|cbn [length]; unfold Base.UINT32_MAX; lia|reflexivity| |reflexivity].
  constructor; [|constructor; [exact int100_effort|constructor]]. intros r t r' H n Hn. pose proof (digit_effort r t r' H n Hn). lia.
Qed.

(** ** Calls of the property *)

Theorem C82_arguments : forall E V A (inj : A -> V) (g : gen E A) k, effort k g -> arg_effort k (treeArg inj g) /\ arg_effort k (arg_gen inj (pure_gen g)).
Proof.
  intros E V A inj g k Hg. split; intros r x r' H.
  - destruct (treeArg_ok _ _ _ _ _ _ _ _ H) as [t [H1 ->]]. exists (map_tree inj t). split; auto. apply within_iff. rewrite longest_map. apply within_iff. eauto.
  - unfold arg_gen, pure_gen in H. apply gbind_ok in H. destruct H as [y [r1 [H1 H]]]. apply gbind_ok in H1. destruct H1 as [t [r2 [H1 H2]]]. inversion H2; subst. inversion H; subst.
    exists (map_tree inj t). split; [apply emap_elift|]. apply within_iff. rewrite longest_map. apply within_iff. eauto.
Qed.
Example C82_arguments_ex : arg_effort 58 (treeArg (fun x => x) vec67).
Proof. apply C82_arguments. exact vec67_effort. Qed.

Lemma efforts_drawn : forall E V W ord (P : property E V W) r ts r1 ks, Forall2 arg_effort ks (gens P) -> evalTuple ord (gens P) r = Ok (inl ts, r1) ->
  exists pts, ts = map elift pts /\ (list_sum (map longest pts) <= list_sum ks)%nat.
Proof.
  intros E V W ord P r ts r1 ks HF H. pose proof (evalTuple_length _ _ _ _ _ _ _ H) as L. apply evalTuple_ok in H. destruct H as [_ R].
  assert (Hk : forall i e, nth_error ts i = Some e -> exists f q q', nth_error (gens P) i = Some f /\ f q = Ok (inl e, q')) by (intros i e Hi; eauto).
  clear R. revert ts L Hk. induction HF as [|k f ks fs Hf HF IH]; intros [|e ts] L Hk; simpl in L; try discriminate.
  - exists []. simpl. auto.
  - destruct (Hk 0%nat e eq_refl) as [f' [q [q' [F1 F2]]]]. inversion F1; subst f'. destruct (Hf _ _ _ F2) as [t [-> Ht]]. apply within_iff in Ht.
    destruct (IH ts) as [pts [-> Hp]]; [lia|intros i x Hi; apply (Hk (S i) x Hi)|]. exists (t :: pts). split; auto.
    cbn [map list_sum fold_right]. unfold list_sum in Hp. lia.
Qed.

(** While shrinking, the property is called at most as often as the bounds of its arguments add up to.  It may be any function: its answers may depend on what it has been called with
    before, it may throw, discard, fail expectations, and hooks may do so too. *)
Theorem C82_calls : forall E V W ev (P : property E V W) s rep s' ks, order (length (gens P)) (ord_each ev) -> Forall2 arg_effort ks (gens P) ->
  shrink ev P s = Ok (rep, s') -> (ncalls (lg s') <= ncalls (lg s) + list_sum ks)%nat.
Proof.
  intros E V W ev P s rep s' ks Ho HF H. pose proof (shrink_inv _ _ _ _ _ _ _ _ H) as [ts [r2 [_ [_ [_ [H1 _]]]]]].
  destruct (efforts_drawn _ _ _ _ _ _ _ _ _ HF H1) as [pts [-> Hp]]. pose proof (shrink_longest _ _ _ _ _ _ _ _ _ _ Ho H1 H). lia.
Qed.
(** A property that fails each third call from the second on and throws at the sixth, whatever its argument: the vector 9, 8, 7, 6 fails the second test; eight more calls lead to [3]. *)
Definition flip : property replay (list Z) nat :=
  {| func := fun a n => ([], if Nat.eqb (Nat.modulo n 3) 1 then URet false else if Nat.eqb n 5 then UThrow EOther else URet true, S n); gens := [treeArg (fun x => x) vec67];
     onStartup := Some (fun n => ([], None, n)); onCleanup := None; numRuns := 5; maxDurationMs := 0; seed := 1 |}.
Lemma flip_args : Forall2 arg_effort [58]%nat (gens flip).
Proof. constructor; [exact C82_arguments_ex|constructor]. Qed.
Lemma order1 : order 1 [0%nat].
Proof. apply Permutation_refl. Qed.
Example C82_calls_ex : order (length (gens flip)) (ord_each (inOrder 1 [])) /\ Forall2 arg_effort [58]%nat (gens flip) /\
  match shrink (inOrder 1 []) flip {| rnd := ([4; 9; 8; 7; 6]%Z : rst replay); cx := newctx; wd := 2%nat; lg := [] |} with
  | Ok (rep, s') => ncalls (lg s') = 8%nat /\ simplest_args rep = [[3]]%Z
  | _ => False
  end.
Proof. split; [exact order1|]. split; [exact flip_args|vm_compute; auto]. Qed.

(** In a whole run: a call for each run and for each input discarded, and those. *)
Theorem C82_run : forall E V W fuel ev (P : property E V W) w v s' ks, order (length (gens P)) (ord_each ev) -> Forall2 arg_effort ks (gens P) ->
  runForAll fuel ev P w = Ok (v, s') ->
  exists js s0, history ev P {| rnd := seeded ev (seed P); cx := newctx; wd := w; lg := [] |} js s0 /\
    match v with
    | VFalsified n _ _ => n = S (passes js) /\ (ncalls (lg s') <= S (length js) + list_sum ks)%nat
    | _ => s' = s0 /\ (ncalls (lg s') <= length js)%nat
    end.
Proof.
  intros E V W fuel ev P w v s' ks Ho HF H. unfold runForAll in H. apply runLoop_ok in H. destruct v as [sm|k sm|t why rep].
  - destruct H as [_ [js [H _]]]. exists js, s'. split; auto. split; auto. apply history_calls in H. auto.
  - destruct H as [_ [js [H _]]]. exists js, s'. split; auto. split; auto. apply history_calls in H. auto.
  - destruct H as [js [s0 [s1 [H [Hf [_ [Ht [_ Hs]]]]]]]]. exists js, s0. split; auto. split; auto.
    apply history_calls in H. apply falsifies_calls in Hf. apply C82_calls with (ks := ks) in Hs; auto. change (lg (with_rnd (rnd s0) s1)) with (lg s1) in Hs. cbn [lg ncalls] in H. simpl in H. lia.
Qed.
Example C82_run_ex : order (length (gens flip)) (ord_each (inOrder 1 [1; 3; 4; 9; 8; 7; 6]%Z)) /\ Forall2 arg_effort [58]%nat (gens flip) /\
  match runForAll 5 (inOrder 1 [1; 3; 4; 9; 8; 7; 6]%Z) flip 0%nat with
  | Ok (VFalsified n why rep, s') => n = 2%nat /\ ncalls (lg s') = 10%nat /\ with_args rep = [[9; 8; 7; 6]]%Z /\ simplest_args rep = [[3]]%Z
  | _ => False
  end.
Proof. split; [exact order1|]. split; [exact flip_args|vm_compute; auto]. Qed.

(** A property that never discards: the number of tests reported and the bounds of the arguments, together. *)
Theorem C82_run_plain : forall E V W fuel ev (P : property E V W) w v s' ks, order (length (gens P)) (ord_each ev) -> Forall2 arg_effort ks (gens P) -> never_discards P ->
  runForAll fuel ev P w = Ok (v, s') ->
  (ncalls (lg s') <= match v with VFalsified n _ _ => n + list_sum ks | VTimedOut n _ => n | VPassed _ => numRuns P end)%nat.
Proof.
  intros E V W fuel ev P w v s' ks Ho HF Hn H. unfold runForAll in H. apply runLoop_ok in H. destruct v as [sm|k sm|t why rep].
  - destruct H as [_ [js [H [H1 _]]]]. rewrite <- H1, <- (history_no_discard _ _ _ _ _ _ _ _ Hn H). apply history_calls in H. auto.
  - destruct H as [_ [js [H [_ [_ [-> _]]]]]]. cbn [Nat.add]. rewrite <- (history_no_discard _ _ _ _ _ _ _ _ Hn H). apply history_calls in H. auto.
  - destruct H as [js [s0 [s1 [H [Hf [_ [-> [_ Hs]]]]]]]]. cbn [Nat.add]. rewrite <- (history_no_discard _ _ _ _ _ _ _ _ Hn H).
    apply history_calls in H. apply falsifies_calls in Hf. apply C82_calls with (ks := ks) in Hs; auto. change (lg (with_rnd (rnd s0) s1)) with (lg s1) in Hs. cbn [lg ncalls] in H. simpl in H. lia.
Qed.
Example C82_run_plain_ex : never_discards flip.
Proof.
  split; [|split].
  - intros args n. cbn [flip func fst snd]. destruct (Nat.eqb (Nat.modulo n 3) 1); [discriminate|]. destruct (Nat.eqb n 5); discriminate.
  - intros h n [H|H]; inversion H; subst. discriminate.
  - constructor; [|constructor]. intros r r' H. unfold treeArg in H. apply gbind_ok in H. destruct H as [t [r1 [_ H]]]. discriminate H.
Qed.

(** A stateful test: the list of actions takes at most 1809 calls and, in addition, 200 times what an action takes; then what the object takes. *)
Theorem C82_stateful : forall E O M W fuel ev dr dd gs stale (sp : sprop E O M W) w v s' after ko ka,
  order 2 (ord_each ev) -> arg_effort ko (sp_initialGen sp) -> effort ka (sp_actionGen sp) ->
  sgo fuel ev dr dd gs stale sp w = (Ok (v, s'), after) ->
  exists js s0, history ev (sbuild dr dd gs sp) {| rnd := seeded ev (seed (sbuild dr dd gs sp)); cx := newctx; wd := w; lg := [] |} js s0 /\
    match v with
    | VFalsified n _ _ => n = S (passes js) /\ (ncalls (lg s') <= S (length js) + (ko + 1809 + 200 * ka))%nat
    | _ => s' = s0 /\ (ncalls (lg s') <= length js)%nat
    end.
Proof.
  intros E O M W fuel ev dr dd gs stale sp w v s' after ko ka Ho Hko Hka H. unfold sgo in H.
  assert (Hr : runForAll fuel ev (sbuild dr dd gs sp) w = Ok (v, s')) by congruence. clear H.
  assert (Hg : gens (sbuild dr dd gs sp) = [arg_gen inl (sp_initialGen sp); arg_gen inr (pure_gen (arbi_vector (sp_actionGen sp) defaultSizes))]).
  { unfold sbuild. destruct (sp_onStartup sp), (sp_onCleanup sp), (sp_seed sp =? _)%Z, (sp_numRuns sp =? _)%Z, (sp_maxDurationMs sp =? _)%Z; reflexivity. }
  assert (Hv := proj2 (proj2 (proj2 (C82_containers E))) _ (sp_actionGen sp) 0%Z 200%Z 8%nat ka ltac:(lia) ltac:(unfold Base.UINT32_MAX; lia) ltac:(lia) Hka).
  change (9 * S (Z.to_nat 200) + Z.to_nat 200 * ka)%nat with (1809 + 200 * ka)%nat in Hv.
  assert (HF : Forall2 arg_effort [ko; (1809 + 200 * ka)%nat] (gens (sbuild dr dd gs sp))).
  { rewrite Hg. constructor; [|constructor; [|constructor]].
    - intros r x r' H. unfold arg_gen in H. apply gbind_ok in H. destruct H as [y [r1 [H1 H]]]. destruct y as [y|e]; inversion H; subst.
      destruct (Hko _ _ _ H1) as [t [-> Ht]]. exists (map_tree inl t). split; [apply emap_elift|]. apply within_iff. rewrite longest_map. apply within_iff. auto.
    - apply C82_arguments. exact Hv. }
  destruct (C82_run _ _ _ _ _ _ _ _ _ _ ltac:(rewrite Hg; exact Ho) HF Hr) as [js [s0 [X1 X2]]]. exists js, s0. split; auto. destruct v; auto.
  destruct X2 as [X2 X3]. split; auto. cbn [list_sum fold_right] in X3. lia.
Qed.
(** Actions and objects that do not shrink: 1809 calls besides those of the tests.  Two tests, the second of which fails (popping an empty stack). *)
Lemma anAction_effort : effort 0 anAction.
Proof. intros r t r' H. unfold anAction in H. apply gbind_ok in H. destruct H as [z [r1 [_ H]]]. inversion H; subst. apply within_iff. auto. Qed.
Lemma aStack_effort : arg_effort 0 aStack.
Proof.
  intros r x r' H. unfold aStack in H. apply gbind_ok in H. destruct H as [z [r1 [_ H]]]. inversion H; subst. exists (Node [z] []). split; auto. apply within_iff. auto.
Qed.
Example C82_stateful_ex : order 2 (ord_each (inOrder 2 [])) /\ arg_effort 0 (sp_initialGen popProp) /\ effort 0 (sp_actionGen popProp) /\
  match fst (sgo 5 (inOrder 2 [5; 1; 1; 5; 6; 1; 0; 0; 0; 1; 2]%Z) 2 0 1 stale0 popProp tt) with
  | Ok (VFalsified n why rep, s') => n = 2%nat /\ ncalls (lg s') = 9%nat
  | _ => False
  end.
Proof. split; [apply Permutation_refl|]. split; [exact aStack_effort|]. split; [exact anAction_effort|]. vm_compute. auto. Qed.

(** ** The bound is reached *)

(** A property whose answers are given in advance. *)
Definition scripted {E V} (t : tree V) : property E V (list bool) :=
  {| func := fun args w => match w with b :: w' => ([], URet b, w') | [] => ([], URet true, []) end; gens := [fun r => Ok (inl (elift t), r)];
     onStartup := None; onCleanup := None; numRuns := 1; maxDurationMs := 0; seed := 1 |}.
Lemma scripted_stream : forall E V (t0 : tree V) cs n, search cs n -> exists answers, forall cur (s : rs E V (list bool)), wd s = answers ->
  exists fin s', shrinkStream (scripted t0) 0 cur newctx (elist cs) s = Ok (fin, s') /\ ncalls (lg s') = (ncalls (lg s) + n)%nat.
Proof.
  intros E V t0 cs n H. induction H as [|c cs n H IH|c cs n H IH].
  - exists []. intros cur s _. exists cur, s. split; auto.
  - destruct IH as [answers IH]. exists (true :: answers). intros cur s Hw. cbn [elist shrinkStream]. unfold gret. cbn [bind].
    unfold test, runHook, callFunc. cbn [scripted onStartup onCleanup func]. cbn [wd with_cx with_rnd]. rewrite Hw. cbn [bind negb orb hasFailures lg rnd cx apply_ops fold_left].
    edestruct (IH cur) as [fin [s' [S1 S2]]]; [|exists fin, s'; split; [exact S1|]]; [reflexivity|].
    rewrite S2. cbn [lg with_cx with_rnd]. rewrite ncalls_app. unfold ncalls at 2. simpl. lia.
  - destruct IH as [answers IH]. exists (false :: answers). intros cur s Hw. cbn [elist shrinkStream]. unfold gret. cbn [bind].
    unfold test, runHook, callFunc. cbn [scripted onStartup onCleanup func]. cbn [wd with_cx with_rnd]. rewrite Hw. cbn [bind negb orb hasFailures lg rnd cx apply_ops fold_left].
    rewrite elift_eq. cbn [shrinkTree]. unfold gret.
    edestruct (IH (set_nth 0 (elift c) cur)) as [fin [s' [S1 S2]]]; [|exists fin, s'; split; [rewrite <- elift_eq; exact S1|]]; [reflexivity|].
    rewrite S2. cbn [lg with_cx with_rnd]. rewrite ncalls_app. unfold ncalls at 2. simpl. lia.
Qed.

(** For every search there is a property with one argument that makes shrinking call it that often.  So the longest search, for one argument, is exactly the number of calls that has to be reckoned with. *)
Theorem C82_reached : forall E V (t : tree V) n (ev : env E), search (shrinks t) n -> ord_regen ev = [0%nat] -> ord_shrinks ev = [0%nat] -> ord_each ev = [0%nat] ->
  exists answers, forall s : rs E V (list bool), wd s = answers ->
  exists rep s', shrink ev (scripted t) s = Ok (rep, s') /\ ncalls (lg s') = (ncalls (lg s) + n)%nat.
Proof.
  intros E V t n ev H O1 O2 O3. destruct (scripted_stream E V t _ _ H) as [answers Ha]. exists answers. intros s Hw.
  assert (H1 : evalTuple [0%nat] (gens (scripted t)) (rnd s) = Ok (inl [elift t], rnd s)) by reflexivity.
  assert (H2 : evalTuple [0%nat] (map (fun x => gbind (eshrinks x) (fun st => gret (inl st))) [elift t]) (rnd s) = Ok (inl [elist (shrinks t)], rnd s)) by (rewrite elift_eq; reflexivity).
  unfold shrink. rewrite O1, O2, O3, H1. cbn [bind]. rewrite H2. cbn [bind shrinkEach nth_error].
  destruct (Ha [elift t] (with_rnd (rnd s) s) Hw) as [fin [s' [S1 S2]]]. rewrite S1. cbn [bind shrinkEach]. eexists. exists s'. split; [reflexivity|]. exact S2.
Qed.
(** 8 calls for 100. *)
Example C82_reached_ex : search (shrinks tree100) 8 /\ ord_each (inOrder 1 []) = [0%nat].
Proof. split; [exact (proj2 worst100)|reflexivity]. Qed.

Print Assumptions C82_worst.
Print Assumptions C82_scan.
Print Assumptions C82_pair.
Print Assumptions C82_tuple.
Print Assumptions C82_map.
Print Assumptions C82_generators.
Print Assumptions C82_filter.
Print Assumptions C82_filter_tolerance_refuted.
Print Assumptions C82_containers.
Print Assumptions C82_encoded.
Print Assumptions C82_oneOf.
Print Assumptions C82_arguments.
Print Assumptions C82_calls.
Print Assumptions C82_run.
Print Assumptions C82_run_plain.
Print Assumptions C82_stateful.
Print Assumptions C82_reached.
