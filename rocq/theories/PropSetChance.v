(** C88: how likely the generators of sets and maps return, and how likely each set is. *)
From Coq Require Import List ZArith QArith Lia Lqa Bool Arith SpecFloat.
From Verif Require Import Base TreeModel BinSearchSpec RandomModel IntegralModel IntegralSpec IntegralProof BoolModel ListModel ListSpec ListMainProof ContainerModel ContainerSpec GenModel EffModel ContextModel RunnerModel RunnerSpec.
From Verif Require StatefulModel.
From Verif Require Import ChanceSpec ChanceProof ChanceLawProof ChanceCombProof EndingSpec EndingProof BugChanceSpec BugChanceProof SetChanceSpec SetChanceProof SetSureProof PropChance.
Import ListNotations.
Local Open Scope Q_scope.

(** The conditions on a range of numbers. *)
Ltac proper_range := cbn; solve [lia | unfold reversed_char; intros [X _]; discriminate | intros [X _]; discriminate].

(** interval and the other generators of a proper range of integers draw evenly from that range. *)
Theorem C88_interval : forall ty min max, (tmin ty <= min)%Z -> (min <= max)%Z -> (max <= tmax ty)%Z -> ~ reversed_char ty min max -> ~ (min = tmin ty /\ max = tmax ty) ->
  evenly (fun E => interval ty min max) (zrange min max).
Proof. exact zrange_evenly. Qed.

Lemma Zlt_order : strict_order Z.ltb.
Proof. constructor; [intros a; apply Z.ltb_irrefl|]. intros a b c H1 H2. apply Z.ltb_lt in H1, H2. apply Z.ltb_lt. lia. Qed.
Lemma Zlt_total : forall a b, Z.ltb a b = false -> Z.ltb b a = false -> a = b.
Proof. intros a b H1 H2. apply Z.ltb_ge in H1, H2. lia. Qed.
Lemma dice_evenly : evenly (fun E => interval TI32 1 6) [1; 2; 3; 4; 5; 6]%Z.
Proof. apply (C88_interval TI32 1 6); proper_range. Qed.

(** ** Returning *)

(** With at most [m] element draws the set generator returns with the probability of having drawn as many different values as the size asks for;
    all sizes between the bounds are equally likely. *)
Theorem C88_set : forall A (lt : A -> A -> bool) g vals mn mx m, strict_order lt -> (forall a b, lt a b = false -> lt b a = false -> a = b) -> evenly g vals ->
  (0 <= mn)%Z -> (mn <= mx)%Z -> (mx <= UINT32_MAX)%Z ->
  likely (fun E => arbi_set m lt (g E) {| minSize := mn; maxSize := mx |}) anything (average mn mx (fun k => collects (length vals) (Z.to_nat k) 0 m)).
Proof.
  intros A lt g vals mn mx m so tot (nd & ne & p & L & M) H0 H1 H2. exists (set_plan A lt m p mn mx). split; [apply set_law; assumption|]. apply set_prob; assumption.
Qed.
(** Two or three different faces of a die within three throws. *)
Example C88_set_ex : likely (fun E => arbi_set 3 Z.ltb (interval TI32 1 6) {| minSize := 2; maxSize := 3 |}) anything (55 # 72).
Proof.
  destruct (C88_set Z Z.ltb (fun E => interval TI32 1 6) _ 2 3 3 Zlt_order Zlt_total dice_evenly) as (p & L & P); [lia|lia|unfold UINT32_MAX; lia|].
  exists p. split; [exact L|]. refine (Qeq_trans _ _ _ P _). vm_compute. reflexivity.
Qed.

(** Maps: the same for the keys, and every value must have been generated. *)
Theorem C88_map : forall K V (lt : K -> K -> bool) gk (gv : forall E, gen E V) vals q mn mx m, strict_order lt -> (forall a b, lt a b = false -> lt b a = false -> a = b) ->
  evenly gk vals -> likely gv anything q -> (0 <= mn)%Z -> (mn <= mx)%Z -> (mx <= UINT32_MAX)%Z ->
  likely (fun E => arbi_map m lt (gk E) (gv E) {| minSize := mn; maxSize := mx |}) anything
    (average mn mx (fun k => collects (length vals) (Z.to_nat k) 0 m * power q (Z.to_nat k))).
Proof.
  intros K V lt gk gv vals q mn mx m so tot (nd & ne & p & L & M) (pv & Lv & Pv) H0 H1 H2. exists (map_plan K V lt m p pv mn mx). split; [apply map_law; assumption|].
  refine (Qeq_trans _ _ _ (map_prob K V lt m p pv mn mx anything anything H0 H1) _). apply average_ext. intros k _. apply Qmult_comp.
  - apply (fill_prob K lt so tot vals p nd ne M m (Z.to_nat k) []); [exact I|intros x []].
  - rewrite times_any. apply power_ext, Pv.
Qed.
Example C88_map_ex : likely (fun E => arbi_map 3 Z.ltb (interval TI32 1 6) (interval TI32 0 9) {| minSize := 2; maxSize := 3 |}) anything (55 # 72).
Proof.
  assert (V : likely (fun E => interval TI32 0 9) anything 1).
  { destruct (C78_integer TI32 0 9 anything) as (p & L & P); try proper_range.
    exists p. split; [exact L|]. rewrite P. exact (average_const 0 9 1 ltac:(lia)). }
  destruct (C88_map Z Z Z.ltb (fun E => interval TI32 1 6) (fun E => interval TI32 0 9) _ 1 2 3 3 Zlt_order Zlt_total dice_evenly V) as (p & L & P); [lia|lia|unfold UINT32_MAX; lia|].
  exists p. split; [exact L|]. refine (Qeq_trans _ _ _ P _). vm_compute. reflexivity.
Qed.

(** Drawing [k] of [n] values takes n/n + n/(n-1) + ... + n/(n-k+1) draws on average, so the probability that more than [m] draws are needed is
    at most that number divided by m + 1; with fewer than [k] values no number of draws is enough. *)
Theorem C88_draws : forall n k m, (0 < n)%nat ->
  ((k <= n)%nat -> sum m (fun i => 1 - collects n k 0 i) <= waiting n k /\ 1 - collects n k 0 m <= waiting n k / asQ (S m)) /\
  ((n < k)%nat -> collects n k 0 m == 0).
Proof.
  intros n k m Hn. split; intros H; [|apply collect_none; lia]. split; [|apply missing_bound; assumption].
  pose proof (missing_sum n k H Hn m 0 ltac:(lia)) as S. unfold left_time in S. change (waiting n 0) with 0 in S. lra.
Qed.
(** All six faces take 14.7 throws on average; after 20 throws they are all there with probability at least 3/10 by the
    bound.  With three faces it is 20/27 after 6 throws. *)
Example C88_draws_ex : waiting 6 6 == 147 # 10 /\ 3 # 10 <= collects 6 6 0 20 /\ collects 6 7 0 20 == 0 /\
  waiting 3 3 == 11 # 2 /\ collects 3 3 0 6 == 20 # 27.
Proof.
  split; [vm_compute; reflexivity|]. split; [|split].
  - destruct (proj1 (C88_draws 6 6 20 ltac:(lia)) ltac:(lia)) as [_ B]. setoid_replace (waiting 6 6 / asQ 21) with (7 # 10) in B by (vm_compute; reflexivity). lra.
  - apply (proj2 (C88_draws 6 7 20 ltac:(lia))). lia.
  - split; vm_compute; reflexivity.
Qed.

(** The set generator returns with probability 1, given enough draws, exactly if there are at least as many values as the largest size. *)
Theorem C88_surely : forall A (lt : A -> A -> bool) g vals mn mx, strict_order lt -> (forall a b, lt a b = false -> lt b a = false -> a = b) -> evenly g vals ->
  (0 <= mn)%Z -> (mn <= mx)%Z -> (mx <= UINT32_MAX)%Z ->
  surely (fun m E => arbi_set m lt (g E) {| minSize := mn; maxSize := mx |}) <-> (mx <= Z.of_nat (length vals))%Z.
Proof.
  intros A lt g vals mn mx so tot Ev H0 H1 H2. pose proof (fun m => C88_set A lt g vals mn mx m so tot Ev H0 H1 H2) as P.
  assert (Hn : (0 < length vals)%nat) by (destruct Ev as (_ & ne & _); destruct vals; [contradiction|cbn; lia]).
  pose proof (width_gt mn mx H1) as W. split.
  - intros S. destruct (Z_le_gt_dec mx (Z.of_nat (length vals))) as [D|D]; [exact D|]. exfalso.
    set (w := inject_Z (mx - mn + 1)) in *. assert (W1 : 0 < 1 / w) by (apply Qlt_shift_div_l; lra).
    destruct (S (1 / w) W1) as (m & q & L & B). destruct (C78_unique _ _ _ _ _ L (P m)) as [X _].
    assert (U : average mn mx (fun k => collects (length vals) (Z.to_nat k) 0 m) <= average mn mx (fun k => 1 + -1 * (if (k =? mx)%Z then 1 else 0))).
    { apply average_le; [exact H1|]. intros z Hz. destruct (Z.eqb_spec z mx) as [->|Dz].
      - rewrite (collect_none (length vals) (Z.to_nat mx) ltac:(lia) m 0 ltac:(lia) Hn). lra.
      - destruct (le_lt_dec (Z.to_nat z) (length vals)) as [Le|Gt].
        + pose proof (collect_range (length vals) (Z.to_nat z) m 0 Le Hn). lra.
        + rewrite (collect_none (length vals) (Z.to_nat z) Gt m 0 ltac:(lia) Hn). lra. }
    rewrite average_plus, average_const, average_scale, average_single in U by lia. fold w in U. lra.
  - intros D eps He. set (t := waiting (length vals) (Z.to_nat mx)).
    assert (T0 : 0 <= t) by (pose proof (waiting_le (length vals) (Z.to_nat mx) 0 ltac:(lia) ltac:(lia)); change (waiting (length vals) 0) with 0 in *; exact H).
    destruct (Qarchimedean (t / eps)) as [b Hb]. exists (Pos.to_nat b), (average mn mx (fun k => collects (length vals) (Z.to_nat k) 0 (Pos.to_nat b))). split; [apply P|].
    assert (Bd : forall z, (mn <= z <= mx)%Z -> 1 - t / asQ (S (Pos.to_nat b)) <= collects (length vals) (Z.to_nat z) 0 (Pos.to_nat b)).
    { intros z Hz. destruct (proj1 (C88_draws (length vals) (Z.to_nat z) (Pos.to_nat b) Hn) ltac:(lia)) as [_ B].
      assert (waiting (length vals) (Z.to_nat z) / asQ (S (Pos.to_nat b)) <= t / asQ (S (Pos.to_nat b))); [|lra].
      apply Qmult_le_compat_r; [apply waiting_le; lia|]. apply Qlt_le_weak, Qinv_lt_0_compat, asQ_pos. lia. }
    assert (Av : average mn mx (fun _ => 1 - t / asQ (S (Pos.to_nat b))) <= average mn mx (fun k => collects (length vals) (Z.to_nat k) 0 (Pos.to_nat b))) by (apply average_le; assumption).
    rewrite average_const in Av by exact H1.
    assert (F : t / asQ (S (Pos.to_nat b)) < eps); [|lra].
    apply Qlt_shift_div_r; [apply asQ_pos; lia|]. rewrite asQ_S.
    assert (Bq : asQ (Pos.to_nat b) == Zpos b # 1) by (unfold asQ; rewrite positive_nat_Z; reflexivity). rewrite Bq.
    assert (t == t / eps * eps) by (field; lra). nra.
Qed.
Example C88_surely_ex : surely (fun m E => arbi_set m Z.ltb (interval TI32 1 6) {| minSize := 0; maxSize := 6 |}) /\
  ~ surely (fun m E => arbi_set m Z.ltb (interval TI32 1 6) {| minSize := 0; maxSize := 7 |}).
Proof.
  split.
  - apply (C88_surely Z Z.ltb (fun E => interval TI32 1 6) _ 0 6 Zlt_order Zlt_total dice_evenly); [lia|lia|unfold UINT32_MAX; lia|]. cbn. lia.
  - intros S. apply (C88_surely Z Z.ltb (fun E => interval TI32 1 6) _ 0 7 Zlt_order Zlt_total dice_evenly) in S; [cbn in S; lia|lia|lia|unfold UINT32_MAX; lia].
Qed.

(** Whatever the element generator's chances: if it only returns values from a list, the set generator returns with at most the share of the sizes that
    the list can fill, however many draws are made. *)
Theorem C88_few : forall A (lt : A -> A -> bool) g p vals mn mx m, strict_order lt -> law g p -> leaves (fun a => In a vals) p ->
  (0 <= mn)%Z -> (mn <= Z.of_nat (length vals) <= mx)%Z -> (mx <= UINT32_MAX)%Z ->
  exists q, likely (fun E => arbi_set m lt (g E) {| minSize := mn; maxSize := mx |}) anything q /\ q <= inject_Z (Z.of_nat (length vals) + 1 - mn) / inject_Z (mx - mn + 1).
Proof.
  intros A lt g p vals mn mx m so L Hp H0 H1 H2. exists (prob (set_plan A lt m p mn mx) anything). split; [|apply set_few; assumption].
  exists (set_plan A lt m p mn mx). split; [apply set_law; try assumption; lia|reflexivity].
Qed.
(** With the default sizes Arbi<set<bool>> returns with probability at most 3/201, and a set of faces of a die with at most 7/201. *)
Definition lessBool (a b : bool) : bool := negb a && b.
Lemma lessBool_order : strict_order lessBool.
Proof. constructor; [intros [|]; reflexivity|]. intros [|] [|] [|]; cbn; auto. Qed.
Example C88_few_ex : forall m, (exists q, likely (fun E => arbi_set m lessBool (arbi_bool d_half) defaultSizes) anything q /\ q <= 3 # 201) /\
  (exists q, likely (fun E => arbi_set m Z.ltb (interval TI32 1 6) defaultSizes) anything q /\ q <= 7 # 201).
Proof.
  intros m. split.
  - destruct coin_half as (p & H & _).
    assert (L : law (fun E => arbi_bool d_half) p).
    { intros E r. unfold arbi_bool. rewrite <- (pbind_ret E _ p). revert r. apply (fits_bind' _ _ _ _ _ same root _ _ p (fun a => Ends (Ok a))); [apply fits_same, H|].
      intros b. apply fits_ret. destruct b; reflexivity. }
    destruct (C88_few bool lessBool (fun E => arbi_bool d_half) p [false; true] 0 200 m lessBool_order L) as (q & Lq & B); [|lia|cbn; lia|unfold UINT32_MAX; lia|].
    + apply (leaves_weaken _ (fun _ => True)); [|apply leaves_true]. intros [|] _; cbn; auto.
    + exists q. split; [exact Lq|exact B].
  - assert (L : law (fun E => interval TI32 1 6) (picked TI32 1 6)).
    { apply (integer_law TI32 1 6); proper_range. }
    destruct (C88_few Z Z.ltb (fun E => interval TI32 1 6) (picked TI32 1 6) [1; 2; 3; 4; 5; 6]%Z 0 200 m Zlt_order L) as (q & Lq & B); [|lia|cbn; lia|unfold UINT32_MAX; lia|].
    + cbn [picked leaves]. rewrite !castT_small by (cbn; lia). intros z Hz. rewrite castT_small by (cbn; lia).
      assert (z = 1 \/ z = 2 \/ z = 3 \/ z = 4 \/ z = 5 \/ z = 6)%Z by lia. cbn. intuition.
    + exists q. split; [exact Lq|exact B].
Qed.

(** Values drawn with different probabilities: if there are at least as many values as the largest size, each drawn with probability at least [eps], more than
    [m] draws are needed with probability at most mx/eps/(m+1); so the generator returns with probability 1. *)
Theorem C88_wait : forall A (lt : A -> A -> bool) g vals eps mn mx m, strict_order lt -> (forall a b, lt a b = false -> lt b a = false -> a = b) ->
  likely g anything 1 -> NoDup vals -> 0 < eps -> (forall v, In v vals -> exists q, likely g (equivalent lt v) q /\ eps <= q) ->
  (0 <= mn)%Z -> (mn <= mx)%Z -> (mx <= UINT32_MAX)%Z -> (mx <= Z.of_nat (length vals))%Z ->
  exists q, likely (fun E => arbi_set m lt (g E) {| minSize := mn; maxSize := mx |}) anything q /\ 1 - inject_Z mx / eps / asQ (S m) <= q.
Proof.
  intros A lt g vals eps mn mx m so tot (p & L & P1) nd He Hv H0 H1 H2 Hx. exists (prob (set_plan A lt m p mn mx) anything). split.
  { exists (set_plan A lt m p mn mx). split; [apply set_law; assumption|reflexivity]. }
  assert (Of : forall v, In v vals -> eps <= prob p (eqv A lt v)).
  { intros v Hin. destruct (Hv v Hin) as (q & Lq & B). destruct (C78_unique _ _ _ _ _ Lq (ex_intro _ p (conj L (Qeq_refl _)))) as [X _]. rewrite X in B. exact B. }
  unfold set_plan, prob. cbn [mean]. rewrite (proj2 (Z.leb_le mn mx) H1). rewrite <- (average_const mn mx (1 - inject_Z mx / eps / asQ (S m)) H1). apply average_le; [exact H1|]. intros z Hz.
  pose proof (wait_bound A lt so tot p P1 vals eps nd He Of (Z.to_nat z) ltac:(lia) m) as B. unfold prob in B.
  assert (C : asQ (Z.to_nat z) / eps / asQ (S m) <= inject_Z mx / eps / asQ (S m)); [|lra].
  unfold Qdiv. apply Qmult_le_compat_r; [|apply Qlt_le_weak, Qinv_lt_0_compat, asQ_pos; lia]. apply Qmult_le_compat_r; [|apply Qlt_le_weak, Qinv_lt_0_compat, He].
  unfold asQ. rewrite Z2Nat.id by lia. rewrite <- Zle_Qle. lia.
Qed.
Theorem C88_certain : forall A (lt : A -> A -> bool) g vals eps mn mx, strict_order lt -> (forall a b, lt a b = false -> lt b a = false -> a = b) ->
  likely g anything 1 -> NoDup vals -> 0 < eps -> (forall v, In v vals -> exists q, likely g (equivalent lt v) q /\ eps <= q) ->
  (0 <= mn)%Z -> (mn <= mx)%Z -> (mx <= UINT32_MAX)%Z -> (mx <= Z.of_nat (length vals))%Z ->
  surely (fun m E => arbi_set m lt (g E) {| minSize := mn; maxSize := mx |}).
Proof.
  intros A lt g vals eps mn mx so tot P1 nd He Hv H0 H1 H2 Hx d Hd. set (t := inject_Z mx / eps).
  assert (T0 : 0 <= t) by (unfold t, Qdiv; apply Qmult_le_0_compat; [change 0 with (inject_Z 0); rewrite <- Zle_Qle; lia|apply Qlt_le_weak, Qinv_lt_0_compat, He]).
  destruct (Qarchimedean (t / d)) as [b Hb]. destruct (C88_wait A lt g vals eps mn mx (Pos.to_nat b) so tot P1 nd He Hv H0 H1 H2 Hx) as (q & L & B).
  exists (Pos.to_nat b), q. split; [exact L|]. fold t in B.
  assert (F : t / asQ (S (Pos.to_nat b)) < d); [|lra].
  apply Qlt_shift_div_r; [apply asQ_pos; lia|]. rewrite asQ_S.
  assert (Bq : asQ (Pos.to_nat b) == Zpos b # 1) by (unfold asQ; rewrite positive_nat_Z; reflexivity). rewrite Bq.
  assert (t == t / d * d) by (field; lra). nra.
Qed.
(** Arbi<set<T>> of every integer type, as it comes, returns with probability 1. *)
Theorem C88_integers : forall ty, ty <> TChar -> surely (fun m E => arbi_set m Z.ltb (arbi ty) defaultSizes).
Proof.
  intros ty Hc. pose proof (tmin_le_tmax ty) as Ht. pose proof (width_gt _ _ Ht) as W. set (w := inject_Z (tmax ty - tmin ty + 1)) in *.
  assert (O1 : odds (2 ^ 63) < 1) by reflexivity.
  apply (C88_certain Z Z.ltb (fun E => arbi ty) (zseq (tmin ty) 200) ((1 - odds (2 ^ 63)) / w) 0 200 Zlt_order Zlt_total); try lia.
  - destruct (C78_any_integer ty anything Hc) as (p & L & P). exists p. split; [exact L|]. rewrite P.
    assert (S1 : share anything (boundaryValues ty) == 1) by (destruct ty; vm_compute; reflexivity).
    assert (A1 : average (tmin ty) (tmax ty) (tells anything) == 1) by exact (average_const (tmin ty) (tmax ty) 1 Ht).
    rewrite S1, A1. ring.
  - apply zseq_nodup.
  - apply Qlt_shift_div_l; [exact W|]. rewrite Qmult_0_l. lra.
  - intros v Hv. assert (B : (tmin ty <= v <= tmax ty)%Z).
    { split; [apply (zseq_bounds _ _ _ Hv)|]. assert (U : forall n lo x, In x (zseq lo n) -> (x < lo + Z.of_nat n)%Z).
      { clear. induction n as [|n IH]; intros lo x H; [destruct H|]. destruct H as [->|H]; [lia|]. apply IH in H. lia. }
      apply U in Hv. assert (tmin ty + 200 <= tmax ty)%Z by (destruct ty; cbn; lia). lia. }
    destruct (C78_any_value ty v Hc B) as (p & L & P). exists (prob p (equivalent Z.ltb v)). split; [exists p; split; [exact L|reflexivity]|].
    rewrite (prob_ext _ p _ (fun x => Z.eqb x v)).
    + rewrite P. assert (0 <= odds (2 ^ 63) * share (fun x => Z.eqb x v) (boundaryValues ty)); [|fold w; lra].
      apply Qmult_le_0_compat; [vm_compute; discriminate|]. unfold share, Qdiv. apply Qmult_le_0_compat; [apply asQ_ge0|].
      apply Qinv_le_0_compat, asQ_ge0.
    + intros a. unfold equivalent. destruct (Z.ltb_spec v a), (Z.ltb_spec a v), (Z.eqb_spec a v); cbn; try reflexivity; lia.
  - unfold UINT32_MAX. lia.
  - rewrite zseq_len. lia.
Qed.
(** Arbi<set<uint8_t>> and Arbi<set<int>>; a set of at most two bools within 99 draws. *)
Example C88_wait_ex : surely (fun m E => arbi_set m Z.ltb (arbi TU8) defaultSizes) /\ surely (fun m E => arbi_set m Z.ltb (arbi TI32) defaultSizes) /\
  exists q, likely (fun E => arbi_set 99 lessBool (arbi_bool d_half) {| minSize := 0; maxSize := 2 |}) anything q /\ 19 # 20 <= q.
Proof.
  split; [apply C88_integers; discriminate|]. split; [apply C88_integers; discriminate|].
  destruct (C78_bool _ _ coin_half) as [T F].
  destruct (C88_wait bool lessBool (fun E => arbi_bool d_half) [false; true] (2 # 5) 0 2 99 lessBool_order) as (q & L & B); try (cbn; lia); try reflexivity.
  - intros [|] [|]; cbn; intros; congruence.
  - destruct coin_half as (p & Hp & P1 & P2). destruct T as (p' & L & Q). exists p'. split; [exact L|].
    destruct (C78_unique _ _ _ _ _ F (ex_intro _ p' (conj L (Qeq_refl _)))) as [X _].
    rewrite (mean_ext _ p' (when anything) (fun x => when (fun b => b) x + when negb x)) by (intros [[|]| | |]; reflexivity).
    rewrite mean_plus. fold (prob p' (fun b => b)) (prob p' negb). rewrite Q, <- X. ring.
  - repeat constructor; cbn; intuition discriminate.
  - intros [|] _.
    + destruct T as (p & L & Q). exists (odds (2 ^ 63)). split; [|vm_compute; discriminate]. exists p. split; [exact L|]. rewrite <- Q. apply prob_ext. intros [|]; reflexivity.
    + destruct F as (p & L & Q). exists (1 - odds (2 ^ 63)). split; [|vm_compute; discriminate]. exists p. split; [exact L|]. rewrite <- Q. apply prob_ext. intros [|]; reflexivity.
  - exists q. split; [exact L|]. refine (Qle_trans _ _ _ _ B). vm_compute. discriminate.
Qed.

(** A map whose value generator always returns comes back exactly as often as the set of its keys. *)
Theorem C88_map_keys : forall K V (lt : K -> K -> bool) (gk : forall E, gen E K) (gv : forall E, gen E V) mn mx m q, strict_order lt -> lawful gk -> likely gv anything 1 ->
  (0 <= mn)%Z -> (mn <= mx)%Z -> (mx <= UINT32_MAX)%Z ->
  likely (fun E => arbi_set m lt (gk E) {| minSize := mn; maxSize := mx |}) anything q <->
  likely (fun E => arbi_map m lt (gk E) (gv E) {| minSize := mn; maxSize := mx |}) anything q.
Proof.
  intros K V lt gk gv mn mx m q so (p & L) (pv & Lv & Pv) H0 H1 H2.
  pose proof (set_law K lt so gk p m mn mx L H0 H1 H2) as S. pose proof (map_law K V lt so gk gv p pv m mn mx L Lv H0 H1 H2) as Mp.
  assert (E : prob (map_plan K V lt m p pv mn mx) anything == prob (set_plan K lt m p mn mx) anything).
  { refine (Qeq_trans _ _ _ (map_prob K V lt m p pv mn mx anything anything H0 H1) _). unfold set_plan, prob at 3. cbn [mean]. rewrite (proj2 (Z.leb_le mn mx) H1). apply average_ext. intros k _.
    rewrite times_any, (power_ext _ _ _ Pv), power_one. unfold prob. ring. }
  split; intros X.
  - destruct (C78_unique _ _ _ _ _ X (ex_intro _ _ (conj S (Qeq_refl _)))) as [Y _]. exists (map_plan K V lt m p pv mn mx). split; [exact Mp|]. rewrite E, <- Y. reflexivity.
  - destruct (C78_unique _ _ _ _ _ X (ex_intro _ _ (conj Mp (Qeq_refl _)))) as [Y _]. exists (set_plan K lt m p mn mx). split; [exact S|]. rewrite <- E, <- Y. reflexivity.
Qed.
(** Arbi<map<int, T>> and the like, with the default sizes. *)
Theorem C88_map_integers : forall ty V (gv : forall E, gen E V), ty <> TChar -> likely gv anything 1 -> surely (fun m E => arbi_map m Z.ltb (arbi ty) (gv E) defaultSizes).
Proof.
  intros ty V gv Hc Hv eps He. destruct (C88_integers ty Hc eps He) as (m & q & L & B). exists m, q. split; [|exact B].
  refine (proj1 (C88_map_keys Z V Z.ltb (fun E => arbi ty) gv 0 200 m q Zlt_order _ Hv _ _ _) L); [|lia|lia|unfold UINT32_MAX; lia].
  destruct (C78_any_integer ty anything Hc) as (p & Lp & _). exists p. exact Lp.
Qed.
Example C88_map_keys_ex : forall m, (exists q, likely (fun E => arbi_map m lessBool (arbi_bool d_half) (interval TI32 0 9) defaultSizes) anything q /\ q <= 3 # 201) /\
  surely (fun m E => arbi_map m Z.ltb (arbi TI32) (interval TI32 0 9) defaultSizes).
Proof.
  intros m. assert (V : likely (fun E => interval TI32 0 9) anything 1).
  { destruct (C78_integer TI32 0 9 anything) as (p & L & P); try proper_range. exists p. split; [exact L|]. rewrite P. exact (average_const 0 9 1 ltac:(lia)). }
  split; [|apply C88_map_integers; [discriminate|exact V]].
  destruct (proj1 (C88_few_ex m)) as (q & L & B). exists q. split; [|exact B].
  refine (proj1 (C88_map_keys bool Z lessBool (fun E => arbi_bool d_half) (fun E => interval TI32 0 9) 0 200 m q lessBool_order _ V _ _ _) L); [|lia|lia|unfold UINT32_MAX; lia].
  destruct (proj1 (C78_bool _ _ coin_half)) as (p & Lp & _). exists p. exact Lp.
Qed.

(** ** forAll *)

(** A property of one argument that passes where [ok] holds and never discards: forAll returns true with probability q^n, where q is the probability that the
    generator returns a value for which [ok] holds; for a property that holds always, the probability that the generator returns. *)
Theorem C88_forAll : forall A W (ev : setting) (g : forall E, gen E A) (P : forall E, property E A W) beh ok q n fuel w, likely g ok q ->
  (forall E, ord_call (ev E) = [0%nat] /\ gens (P E) = [StatefulModel.pure_gen (g E)] /\ pure_property (P E) beh /\ maxDurationMs (P E) = 0%Z /\ numRuns (P E) = n) ->
  no_leak beh -> (forall a, judge (beh [a]) <> JDiscard /\ (judge (beh [a]) = JPass <-> ok a = true)) ->
  likelyResult (fun E r => Ok (returnedTrue (runForAll (S fuel) (starting r (ev E)) (P E) w))) (fun b => b) (power q n) /\
  likelyResult (fun E r => Ok (returnedTrue (runForAll (S fuel) (starting r (ev E)) (P E) w))) negb (1 - power q n).
Proof.
  intros A W ev g P beh ok q n fuel w (p & L & Q) HP HL HB.
  assert (F : inputsFollow ev P (pmap (fun a => inl [a]) p)).
  { intros E r. destruct (HP E) as (-> & -> & _). unfold pmap. rewrite play_bind. unfold gbind. rewrite <- (L E r). unfold evalTuple, gbind. cbn [map evalIn nth_error]. unfold StatefulModel.pure_gen, gbind.
    destruct (g E r) as [[t r']| | |]; try reflexivity. cbn. rewrite eroot_elift. reflexivity. }
  assert (D : prob (pmap (fun a => inl [a]) p) (discarding beh) == 0).
  { rewrite prob_map. apply prob_none. intros a. unfold discarding, judgeInput. destruct (HB a) as [X _]. destruct (judge (beh [a])); try reflexivity. contradiction. }
  assert (C : prob (pmap (fun a => inl [a]) p) (passing beh) == q).
  { rewrite prob_map, <- Q. apply prob_ext. intros a. unfold passing, judgeInput. destruct (HB a) as [_ X].
    destruct (judge (beh [a])), (ok a); try reflexivity; try (symmetry; apply X; reflexivity); exfalso; pose proof (proj2 X eq_refl); discriminate. }
  assert (R : power (series (prob (pmap (fun a => inl [a]) p) (discarding beh)) (S fuel) * prob (pmap (fun a => inl [a]) p) (passing beh)) n == power q n).
  { apply power_ext. rewrite C. cbn [series]. generalize (series (prob (pmap (fun a => inl [a]) p) (discarding beh)) fuel). intros x. rewrite D. ring. }
  destruct (C78_forAll A W ev P beh _ (S fuel) n w (fun E => proj2 (proj2 (HP E))) HL F) as [(pl & Lp & R1) (pl2 & Lp2 & R2)].
  split; [exists pl|exists pl2]; (split; [assumption|]); [rewrite R1|rewrite R2]; rewrite R; reflexivity.
Qed.
(** A property of Arbi<set<bool>> that is always true, with the default sizes: already two runs get through less than once in 4000 times. *)
Definition setOfBools (m : nat) : forall E, property E (list bool) unit := fun E =>
  {| func := fun args w => ([], URet true, w); gens := [StatefulModel.pure_gen (arbi_set m lessBool (arbi_bool d_half) defaultSizes)]; onStartup := None; onCleanup := None; numRuns := 2; maxDurationMs := 0; seed := 0 |}.
Example C88_forAll_ex : forall (ev : setting) m, (forall E, ord_call (ev E) = [0%nat]) ->
  exists q, likelyResult (fun E r => Ok (returnedTrue (runForAll 1 (starting r (ev E)) (setOfBools m E) tt))) (fun b => b) q /\ q <= 1 # 4000.
Proof.
  intros ev m H. destruct (proj1 (C88_few_ex m)) as (q & L & B). exists (power q 2). split.
  - refine (proj1 (C88_forAll (list bool) unit ev (fun E => arbi_set m lessBool (arbi_bool d_half) defaultSizes) (setOfBools m) (fun _ => ([], URet true)) anything q 2 0 tt L _ _ _)).
    + intros E. split; [apply H|]. repeat split.
    + intros args X. exfalso. apply X. reflexivity.
    + intros a. split; [discriminate|split; reflexivity].
  - assert (0 <= q) by (destruct L as (p & _ & <-); apply prob_range). cbn [power]. assert (q * (q * 1) <= (3 # 201) * ((3 # 201) * 1)) by nra. lra.
Qed.

(** ** Which set *)

(** All sets of the same number of values are equally likely. *)
Theorem C88_equal : forall A (lt : A -> A -> bool) g vals mn mx m goal (isGoal : list A -> bool), strict_order lt -> (forall a b, lt a b = false -> lt b a = false -> a = b) ->
  evenly g vals -> (0 <= mn)%Z -> (mx <= UINT32_MAX)%Z ->
  ascending lt goal -> incl goal vals -> (mn <= Z.of_nat (length goal) <= mx)%Z -> (forall l, isGoal l = true <-> l = goal) ->
  likely (fun E => arbi_set m lt (g E) {| minSize := mn; maxSize := mx |}) isGoal
    (collects (length vals) (length goal) 0 m / (asQ (choose (length vals) (length goal)) * inject_Z (mx - mn + 1))).
Proof.
  intros A lt g vals mn mx m goal isGoal so tot (nd & ne & p & L & M) H0 H2 Ha Hi H1 HG. exists (set_plan A lt m p mn mx). split; [apply set_law; try assumption; lia|].
  apply set_exact; assumption.
Qed.
Definition isList (goal l : list Z) : bool := if list_eq_dec Z.eq_dec l goal then true else false.
Lemma isList_true : forall goal l, isList goal l = true <-> l = goal.
Proof. intros goal l. unfold isList. destruct (list_eq_dec Z.eq_dec l goal); split; auto; intros; discriminate. Qed.
(** Within three throws, sizes 2 or 3: each of the 15 pairs with probability 35/36/15/2, each of the 20 triples with 5/9/20/2. *)
Example C88_equal_ex : likely (fun E => arbi_set 3 Z.ltb (interval TI32 1 6) {| minSize := 2; maxSize := 3 |}) (isList [2; 5]%Z) (7 # 216) /\
  likely (fun E => arbi_set 3 Z.ltb (interval TI32 1 6) {| minSize := 2; maxSize := 3 |}) (isList [1; 4; 6]%Z) (1 # 72).
Proof.
  split.
  - destruct (C88_equal Z Z.ltb (fun E => interval TI32 1 6) _ 2 3 3 [2; 5]%Z (isList [2; 5]%Z) Zlt_order Zlt_total dice_evenly) as (p & L & P);
      [lia|unfold UINT32_MAX; lia|repeat constructor|intros x; cbn; intuition|cbn; lia|apply isList_true|].
    exists p. split; [exact L|]. refine (Qeq_trans _ _ _ P _). vm_compute. reflexivity.
  - destruct (C88_equal Z Z.ltb (fun E => interval TI32 1 6) _ 2 3 3 [1; 4; 6]%Z (isList [1; 4; 6]%Z) Zlt_order Zlt_total dice_evenly) as (p & L & P);
      [lia|unfold UINT32_MAX; lia|repeat constructor|intros x; cbn; intuition|cbn; lia|apply isList_true|].
    exists p. split; [exact L|]. refine (Qeq_trans _ _ _ P _). vm_compute. reflexivity.
Qed.

(** Each value is in the set with probability k/N when the size is k. *)
Theorem C88_contains : forall A (lt : A -> A -> bool) g vals mn mx m v, strict_order lt -> (forall a b, lt a b = false -> lt b a = false -> a = b) -> evenly g vals -> In v vals ->
  (0 <= mn)%Z -> (mn <= mx)%Z -> (mx <= UINT32_MAX)%Z ->
  likely (fun E => arbi_set m lt (g E) {| minSize := mn; maxSize := mx |}) (existsb (equivalent lt v))
    (average mn mx (fun k => collects (length vals) (Z.to_nat k) 0 m * (inject_Z k / asQ (length vals)))) /\
  likely (fun E => arbi_set m lt (g E) {| minSize := mn; maxSize := mx |}) (fun l => negb (existsb (equivalent lt v) l))
    (average mn mx (fun k => collects (length vals) (Z.to_nat k) 0 m * (1 - inject_Z k / asQ (length vals)))).
Proof.
  intros A lt g vals mn mx m v so tot (nd & ne & p & L & M) Hv H0 H1 H2.
  pose proof (set_contains A lt so tot vals p nd ne M v Hv m mn mx H0 H1) as C.
  split; exists (set_plan A lt m p mn mx); (split; [apply set_law; assumption|]); [exact C|].
  pose proof (set_prob A lt so tot vals p nd ne M m mn mx H1) as S.
  assert (T : prob (set_plan A lt m p mn mx) (fun l => negb (existsb (equivalent lt v) l)) + prob (set_plan A lt m p mn mx) (mem A lt v) == prob (set_plan A lt m p mn mx) anything).
  { unfold prob. rewrite <- mean_plus. apply mean_ext. intros [l| | |]; try reflexivity. cbn [when anything]. change (mem A lt v l) with (existsb (equivalent lt v) l). destruct (existsb (equivalent lt v) l); reflexivity. }
  rewrite S, C in T.
  rewrite (average_ext _ _ (fun k => collects (length vals) (Z.to_nat k) 0 m * (1 - inject_Z k / asQ (length vals)))
    (fun k => collects (length vals) (Z.to_nat k) 0 m + -1 * (collects (length vals) (Z.to_nat k) 0 m * (inject_Z k / asQ (length vals))))) by (intros z _; ring).
  rewrite average_plus, average_scale. lra.
Qed.
(** A six among two or three different faces within three throws: (35/36 * 2/6 + 5/9 * 3/6) / 2.  A property that fails on sets with a six, run twice, fails or
    hangs with probability 1 - (100/216)^2. *)
Definition noSix (args : list (list Z)) : list op * ures := ([], URet (negb (existsb (existsb (equivalent Z.ltb 6%Z)) args))).
Definition setOfFaces : forall E, property E (list Z) unit := fun E =>
  {| func := fun args w => (fst (noSix args), snd (noSix args), w); gens := [StatefulModel.pure_gen (arbi_set 3 Z.ltb (interval TI32 1 6) {| minSize := 2; maxSize := 3 |})];
     onStartup := None; onCleanup := None; numRuns := 2; maxDurationMs := 0; seed := 0 |}.
Example C88_contains_ex : likely (fun E => arbi_set 3 Z.ltb (interval TI32 1 6) {| minSize := 2; maxSize := 3 |}) (existsb (equivalent Z.ltb 6%Z)) (65 # 216) /\
  forall (ev : setting), (forall E, ord_call (ev E) = [0%nat]) ->
  likelyResult (fun E r => Ok (returnedTrue (runForAll 1 (starting r (ev E)) (setOfFaces E) tt))) negb (1 - power (100 # 216) 2).
Proof.
  destruct (C88_contains Z Z.ltb (fun E => interval TI32 1 6) _ 2 3 3 6%Z Zlt_order Zlt_total dice_evenly) as [(p & L & P) (p' & L' & P')]; [cbn; tauto|lia|lia|unfold UINT32_MAX; lia|]. split.
  - exists p. split; [exact L|]. refine (Qeq_trans _ _ _ P _). vm_compute. reflexivity.
  - intros ev H. refine (proj2 (C88_forAll (list Z) unit ev (fun E => arbi_set 3 Z.ltb (interval TI32 1 6) {| minSize := 2; maxSize := 3 |}) setOfFaces noSix
      (fun l => negb (existsb (equivalent Z.ltb 6%Z) l)) (100 # 216) 2 0 tt _ _ _ _)).
    + exists p'. split; [exact L'|]. refine (Qeq_trans _ _ _ P' _). vm_compute. reflexivity.
    + intros E. split; [apply H|]. repeat split.
    + intros args X. exfalso. apply X. reflexivity.
    + intros a. unfold noSix. cbn [existsb]. rewrite orb_false_r. destruct (existsb (equivalent Z.ltb 6%Z) a); cbn; split; try discriminate; split; intros; try reflexivity; try discriminate.
Qed.

(** Maps: the keys are such a set, and the values are drawn independently of the keys and of each other. *)
Theorem C88_map_equal : forall K V (lt : K -> K -> bool) gk (gv : forall E, gen E V) vals mn mx m goal (isGoal : list K -> bool) evs qs,
  strict_order lt -> (forall a b, lt a b = false -> lt b a = false -> a = b) -> evenly gk vals -> lawful gv -> Forall2 (likely gv) evs qs -> (0 <= mn)%Z -> (mx <= UINT32_MAX)%Z ->
  ascending lt goal -> incl goal vals -> (mn <= Z.of_nat (length goal) <= mx)%Z -> (forall l, isGoal l = true <-> l = goal) -> length evs = length goal ->
  likely (fun E => arbi_map m lt (gk E) (gv E) {| minSize := mn; maxSize := mx |}) (fun l => isGoal (map fst l) && each evs (map snd l))%bool
    (collects (length vals) (length goal) 0 m / (asQ (choose (length vals) (length goal)) * inject_Z (mx - mn + 1)) * product qs).
Proof.
  intros K V lt gk gv vals mn mx m goal isGoal evs qs so tot (nd & ne & p & L & M) (pv & Lv) Hq H0 H2 Ha Hi H1 HG He. exists (map_plan K V lt m p pv mn mx). split; [apply map_law; try assumption; lia|].
  rewrite map_prob by lia. rewrite (average_ext _ _ _ (fun n => product (map (prob pv) evs) * prob (fill_plan K lt m p (Z.to_nat n) []) isGoal)).
  - rewrite average_scale. rewrite Qmult_comm. apply Qmult_comp.
    + pose proof (set_exact K lt so tot vals p nd ne M goal isGoal HG Ha Hi m mn mx H0 H1) as X. unfold set_plan, prob at 1 in X. cbn [mean] in X. rewrite (proj2 (Z.leb_le mn mx)) in X by lia. exact X.
    + clear - Hq Lv. induction Hq as [|ev q evs qs Hq _ IH]; [reflexivity|]. cbn [map product fold_right]. apply Qmult_comp; [|exact IH].
      destruct (C78_unique _ _ _ _ _ Hq (ex_intro _ pv (conj Lv (Qeq_refl _)))) as [X _]. symmetry. exact X.
  - intros z Hz. rewrite times_prob. destruct (Nat.eqb_spec (length evs) (Z.to_nat z)) as [D|D]; [ring|].
    rewrite (prob_leaves _ _ _ isGoal (fill_leaves K lt m p (Z.to_nat z) [] ltac:(cbn; lia))); [ring|]. intros l [Hl _].
    destruct (isGoal l) eqn:G; [|reflexivity]. apply HG in G. subst l. lia.
Qed.
(** {2: 7, 5: 0} as a map from faces to digits. *)
Example C88_map_equal_ex : likely (fun E => arbi_map 3 Z.ltb (interval TI32 1 6) (interval TI32 0 9) {| minSize := 2; maxSize := 3 |})
  (fun l => isList [2; 5]%Z (map fst l) && each [Z.eqb 7; Z.eqb 0] (map snd l))%bool (7 # 21600).
Proof.
  assert (V : forall v, (0 <= v <= 9)%Z -> likely (fun E => interval TI32 0 9) (Z.eqb v) (1 # 10)).
  { intros v Hv. destruct (C78_integer_uniform TI32 0 9 v) as (p & L & P); try proper_range.
    exists p. split; [exact L|]. rewrite (prob_ext _ p _ (fun x => Z.eqb x v)); [|intros a; apply Z.eqb_sym]. exact P. }
  assert (W : lawful (fun E => interval TI32 0 9)) by (destruct (V 0%Z ltac:(lia)) as (p & L & _); exists p; exact L).
  destruct (C88_map_equal Z Z Z.ltb (fun E => interval TI32 1 6) (fun E => interval TI32 0 9) _ 2 3 3 [2; 5]%Z (isList [2; 5]%Z) [Z.eqb 7; Z.eqb 0] [1 # 10; 1 # 10] Zlt_order Zlt_total dice_evenly W) as (p & L & P);
    [constructor; [apply V; lia|constructor; [apply V; lia|constructor]]|lia|unfold UINT32_MAX; lia|repeat constructor|intros x; cbn; intuition|cbn; lia|apply isList_true|reflexivity|].
  exists p. split; [exact L|]. refine (Qeq_trans _ _ _ P _). vm_compute. reflexivity.
Qed.

Print Assumptions C88_interval.
Print Assumptions C88_set.
Print Assumptions C88_map.
Print Assumptions C88_draws.
Print Assumptions C88_surely.
Print Assumptions C88_few.
Print Assumptions C88_wait.
Print Assumptions C88_certain.
Print Assumptions C88_integers.
Print Assumptions C88_map_keys.
Print Assumptions C88_map_integers.
Print Assumptions C88_forAll.
Print Assumptions C88_equal.
Print Assumptions C88_contains.
Print Assumptions C88_map_equal.
