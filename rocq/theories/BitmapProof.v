(** Invariants of the slot bitmap. *)
From Coq Require Import List ZArith Lia Bool Arith.
From Verif Require Import Base TupleModel TupleProof BitmapModel BitmapSpec.
Import ListNotations.
Local Open Scope Z_scope.

Lemma setnth_len : forall X (l : list X) n x, length (set_nth n x l) = length l.
Proof. induction l; destruct n; simpl; auto. Qed.
Lemma setnth_at : forall X (l : list X) n x y, nth_error l n = Some y -> nth_error (set_nth n x l) n = Some x.
Proof. induction l; destruct n; simpl; intros; try discriminate; eauto. Qed.
Lemma setnth_other : forall X (l : list X) n m x, n <> m -> nth_error (set_nth n x l) m = nth_error l m.
Proof. induction l; destruct n; destruct m; simpl; intros; try congruence; auto. Qed.
Lemma setnth_inv : forall X (l : list X) t x u y, nth_error (set_nth t x l) u = Some y -> (u = t /\ y = x) \/ (u <> t /\ nth_error l u = Some y).
Proof.
  intros X l t x u y H. destruct (Nat.eq_dec u t) as [->|N].
  - left. destruct (nth_error l t) eqn:E; [rewrite (setnth_at _ _ _ _ _ E) in H; inversion H; auto|].
    apply nth_error_None in E. assert (nth_error (set_nth t x l) t = None) by (apply nth_error_None; rewrite setnth_len; auto). congruence.
  - right. rewrite setnth_other in H; auto.
Qed.

Definition cnt (l : list Z) (n : Z) : nat := count_occ Z.eq_dec l n.
#[local] Arguments cnt : simpl never.
Lemma cnt_app : forall a b n, cnt (a ++ b) n = (cnt a n + cnt b n)%nat.
Proof. intros. unfold cnt. apply count_occ_app. Qed.
Lemma cnt_cons : forall x l n, cnt (x :: l) n = ((if Z.eqb x n then 1 else 0) + cnt l n)%nat.
Proof. intros. unfold cnt. simpl. destruct (Z.eq_dec x n); destruct (Z.eqb_spec x n); auto; congruence. Qed.
Lemma cnt_nil : forall n, cnt [] n = 0%nat.
Proof. reflexivity. Qed.
Lemma cnt_in : forall l n, In n l <-> (0 < cnt l n)%nat.
Proof. intros. unfold cnt. rewrite (count_occ_In Z.eq_dec). lia. Qed.
Lemma cnt_without : forall l k n, In k l -> (cnt (without k l) n + (if Z.eqb k n then 1 else 0) = cnt l n)%nat.
Proof.
  induction l as [|x l IH]; intros k n H; [destruct H|]. simpl. rewrite cnt_cons. destruct (Z.eqb_spec x k) as [->|N]; [lia|].
  rewrite cnt_cons. destruct H as [H|H]; [congruence|]. specialize (IH k n H). lia.
Qed.
Lemma without_incl : forall l k n, In n (without k l) -> In n l.
Proof. induction l as [|x l IH]; simpl; auto. intros k n. destruct (x =? k); simpl; intuition eauto. Qed.
Lemma without_other : forall l k n, n <> k -> In n l -> In n (without k l).
Proof.
  induction l as [|x l IH]; intros k n N H; simpl in *; auto. destruct (Z.eqb_spec x k) as [->|E].
  - destruct H; auto. congruence.
  - destruct H; simpl; auto.
Qed.

(** What a position in the code claims. *)
Definition pc_claim (p : pc) : list Z :=
  match p with TakeCheck n | TakeStore n | Release n | PutCheck n | PutStore n => [n] | _ => [] end.
Definition claims (th : thread) : list Z := owns th ++ pc_claim (at_ th).
Definition claimed (l : list thread) : list Z := flat_map claims l.

Lemma cnt_set : forall l t th th' n, nth_error l t = Some th ->
  (cnt (claimed (set_nth t th' l)) n + cnt (claims th) n = cnt (claimed l) n + cnt (claims th') n)%nat.
Proof.
  induction l as [|x l IH]; intros t th th' n H; destruct t; simpl in *; try discriminate.
  - inversion H; subst. rewrite !cnt_app. lia.
  - rewrite !cnt_app. specialize (IH _ _ th' n H). unfold claimed in *. lia.
Qed.
Lemma cnt_le : forall l t th n, nth_error l t = Some th -> (cnt (claims th) n <= cnt (claimed l) n)%nat.
Proof.
  induction l as [|x l IH]; intros t th n H; destruct t; simpl in *; try discriminate; rewrite !cnt_app.
  - inversion H; subst. lia.
  - specialize (IH _ _ n H). unfold claimed in *. lia.
Qed.
Lemma cnt_two : forall l t u th uh n, t <> u -> nth_error l t = Some th -> nth_error l u = Some uh ->
  (cnt (claims th) n + cnt (claims uh) n <= cnt (claimed l) n)%nat.
Proof.
  induction l as [|x l IH]; intros t u th uh n N Ht Hu; destruct t; destruct u; simpl in *; try discriminate; try congruence; rewrite !cnt_app.
  - inversion Ht; subst. pose proof (cnt_le _ _ _ n Hu). unfold claimed in *. lia.
  - inversion Hu; subst. pose proof (cnt_le _ _ _ n Ht). unfold claimed in *. lia.
  - assert (t <> u) by congruence. specialize (IH _ _ _ _ n H Ht Hu). unfold claimed in *. lia.
Qed.

Definition expected (r : res slot) : nat := match r with Ok Available => 0 | Ok _ => 1 | _ => 0 end.
Definition ok_pc (size : nat) (m : list slot) (p : pc) : Prop :=
  match p with
  | Idle => True
  | Scan _ rest => Forall (fun i => 0 <= i < Z.of_nat size) rest
  | TakeCheck n | TakeStore n | PutCheck n | PutStore n => idx m n = Ok Changing
  | Release n => idx m n = Ok Unavailable
  | Died | Broken => False
  end.
Definition ok_thread (size : nat) (m : list slot) (th : thread) : Prop :=
  (forall n, In n (owns th) -> idx m n = Ok Unavailable) /\ ok_pc size m (at_ th).

Record inv (size : nat) (c : config) : Prop := {
  i_len : length (slots c) = size;
  i_cnt : forall n, cnt (claimed (threads c)) n = expected (idx (slots c) n);
  i_ok : forall t th, nth_error (threads c) t = Some th -> ok_thread size (slots c) th }.

Lemma idx_range : forall (m : list slot) n s, idx m n = Ok s -> 0 <= n < Z.of_nat (length m).
Proof.
  intros m n s H. unfold idx in H. destruct (Z.ltb_spec n 0); [discriminate|]. destruct (nth_error m (Z.to_nat n)) eqn:E; [|discriminate].
  assert (Z.to_nat n < length m)%nat by (apply nth_error_Some; congruence). lia.
Qed.
Lemma idx_some : forall (m : list slot) n, 0 <= n < Z.of_nat (length m) -> exists s, idx m n = Ok s.
Proof.
  intros m n H. unfold idx. destruct (Z.ltb_spec n 0); [lia|]. destruct (nth_error m (Z.to_nat n)) eqn:E; eauto.
  apply nth_error_None in E. lia.
Qed.
Lemma idx_put : forall m i s0 s n, idx m i = Ok s0 -> idx (put_slot m i s) n = if n =? i then Ok s else idx m n.
Proof.
  intros m i s0 s n H. pose proof (idx_range _ _ _ H) as R. unfold idx, put_slot in *. destruct (Z.eqb_spec n i) as [->|N].
  - destruct (Z.ltb_spec i 0); [lia|]. destruct (nth_error m (Z.to_nat i)) eqn:E; [|discriminate]. rewrite (setnth_at _ _ _ _ _ E). auto.
  - destruct (Z.ltb_spec n 0); auto. rewrite setnth_other; auto. lia.
Qed.
Lemma put_len : forall m i s, length (put_slot m i s) = length m.
Proof. intros. apply setnth_len. Qed.

Lemma inv_same : forall size c t th th', inv size c -> nth_error (threads c) t = Some th -> (forall n, cnt (claims th') n = cnt (claims th) n) ->
  ok_thread size (slots c) th' -> inv size {| slots := slots c; threads := set_nth t th' (threads c) |}.
Proof.
  intros size c t th th' [L C O] H Hc Ho. constructor; simpl; auto.
  - intros n. pose proof (cnt_set _ _ _ th' n H). rewrite Hc in H0. rewrite <- C. lia.
  - intros u uh Hu. apply setnth_inv in Hu. destruct Hu as [[-> ->]|[N Hu]]; eauto.
Qed.

Lemma ok_untouched : forall size m m' i uh, (forall n, n <> i -> idx m' n = idx m n) -> ~ In i (claims uh) -> ok_thread size m uh -> ok_thread size m' uh.
Proof.
  intros size m m' i uh Hm Hi [A B]. unfold claims in Hi. split.
  - intros n Hn. rewrite Hm; auto. intros ->. apply Hi. apply in_or_app. auto.
  - assert (Hq : forall n, In n (pc_claim (at_ uh)) -> n <> i) by (intros n Hn ->; apply Hi; apply in_or_app; auto).
    destruct (at_ uh); simpl in *; auto; rewrite Hm; auto.
Qed.

Lemma inv_change : forall size c t th th' i s0 s, inv size c -> nth_error (threads c) t = Some th -> idx (slots c) i = Ok s0 ->
  (cnt (claims th) i = expected (Ok s0))%nat -> (cnt (claims th') i = expected (Ok s))%nat ->
  (forall n, n <> i -> cnt (claims th') n = cnt (claims th) n) ->
  (ok_thread size (put_slot (slots c) i s) th') ->
  inv size {| slots := put_slot (slots c) i s; threads := set_nth t th' (threads c) |}.
Proof.
  intros size c t th th' i s0 s [L C O] H Hi C1 C2 C3 Ho. constructor; simpl.
  - rewrite put_len. auto.
  - intros n. pose proof (cnt_set _ _ _ th' n H). rewrite (idx_put _ _ _ _ _ Hi). rewrite C in H0. destruct (Z.eqb_spec n i) as [->|N].
    + rewrite Hi in H0. lia.
    + rewrite (C3 n N) in H0. lia.
  - intros u uh Hu. apply setnth_inv in Hu. destruct Hu as [[-> ->]|[N Hu]]; auto.
    eapply (ok_untouched size (slots c) _ i); eauto.
    + intros n Hn. rewrite (idx_put _ _ _ _ _ Hi). destruct (Z.eqb_spec n i); congruence.
    + rewrite cnt_in. intros Hc. assert (t <> u) by congruence. pose proof (cnt_two _ _ _ _ _ i H0 H Hu). rewrite C, Hi in H1. lia.
Qed.

Lemma visits_in : forall size n, In n (visits size 0) <-> 0 <= n < Z.of_nat size.
Proof.
  intros. unfold visits. simpl. rewrite app_nil_r, Nat.sub_0_r, in_map_iff. split.
  - intros [k [<- H]]. apply in_seq in H. lia.
  - intros H. exists (Z.to_nat n). split; [lia|]. apply in_seq. lia.
Qed.
Lemma visits_ok : forall size, Forall (fun i => 0 <= i < Z.of_nat size) (visits size 0).
Proof. intros. apply Forall_forall. intros n. apply visits_in. Qed.
Lemma visits_len : forall size, length (visits size 0) = size.
Proof. intros. unfold visits. simpl. rewrite app_nil_r, map_length, seq_length. lia. Qed.

Lemma cas_ok : forall m i s a b, idx m i = Ok s -> cas m i a b = if slot_eqb s a then Ok (true, put_slot m i b) else Ok (false, m).
Proof. intros m i s a b H. unfold cas. rewrite H. reflexivity. Qed.

Lemma cnt1 : forall n k : Z, cnt [n] k = (if Z.eqb n k then 1 else 0)%nat.
Proof. intros. rewrite cnt_cons. unfold cnt. simpl. lia. Qed.

Lemma inv_claim : forall size c t th i s, inv size c -> nth_error (threads c) t = Some th -> pc_claim (at_ th) = [i] -> idx (slots c) i = Ok s -> s <> Available ->
  cnt (owns th) i = 0%nat.
Proof.
  intros size c t th i s [L C O] H Hp Hi Hs. pose proof (cnt_le _ _ _ i H). rewrite C, Hi in H0. unfold claims in H0.
  rewrite cnt_app, Hp, cnt1, Z.eqb_refl in H0. destruct s; simpl in H0; try congruence; lia.
Qed.

Lemma inv_step : forall size c l d, inv size c -> step size true c l d -> inv size d.
Proof.
  intros size c l d I H. destruct H as [c|c t th k Ht Hidle Hpol|c t th o Ht Ho|c t u th uh n N Ht Hu Hn].
  - destruct I as [L C O]. constructor; simpl; auto.
    + intros n. unfold claimed in *. rewrite flat_map_app, cnt_app. simpl. rewrite C. unfold cnt. simpl. lia.
    + intros t th H. destruct (lt_dec t (length (threads c))) as [Hl|Hl].
      * rewrite nth_error_app1 in H by auto. eauto.
      * rewrite nth_error_app2 in H by lia. destruct (t - length (threads c))%nat as [|q]; simpl in H; [|destruct q; discriminate].
        inversion H. split; simpl; auto. intros ? [].
  - pose proof (i_ok _ _ I _ _ Ht) as [O1 O2].
    assert (HQ : k = Acquire \/ k = TryAcquire \/ exists n, k = Unacquire n) by (destruct k; eauto).
    destruct HQ as [->|[->|[n ->]]]; simpl.
    + eapply inv_same; eauto; [intros; unfold claims; simpl; rewrite Hidle; auto|split; simpl; auto; apply visits_ok].
    + eapply inv_same; eauto; [intros; unfold claims; simpl; rewrite Hidle; auto|split; simpl; auto; apply visits_ok].
    + pose proof (Hpol n eq_refl eq_refl) as Hin. eapply inv_same; eauto.
      * intros m. unfold claims; simpl. rewrite Hidle. simpl. rewrite !cnt_app, cnt1. rewrite <- (cnt_without _ n m Hin). unfold cnt at 3. simpl. lia.
      * split; simpl; auto. intros m Hm. apply O1. eapply without_incl; eauto.
  - pose proof (i_ok _ _ I _ _ Ht) as [O1 O2]. destruct th as [p ow]. simpl in *.
    destruct p as [|r rest|n|n|n|n|n| |]; simpl in Ho; try discriminate.
    + destruct rest as [|i rest].
      * destruct r; inversion Ho; subst; simpl.
        -- eapply inv_same; eauto. split; simpl; auto. apply visits_ok.
        -- eapply inv_same; eauto. split; simpl; auto.
      * assert (Ho' : Some match cas (slots c) i Available Changing with Ok (true, m') => Go (TakeCheck i) m' | Ok (false, m') => Go (Scan r rest) m' | _ => Go Broken (slots c) end = Some o)
          by (destruct r; exact Ho). clear Ho. simpl in O2. inversion O2 as [|? ? Hi O3]; subst.
        rewrite <- (i_len _ _ I) in Hi. destruct (idx_some _ _ Hi) as [s Hs]. rewrite (cas_ok _ _ _ _ _ Hs) in Ho'.
        destruct (slot_eqb s Available) eqn:E; inversion Ho'; subst; simpl.
        -- assert (s = Available) by (destruct s; simpl in E; congruence). subst s.
           assert (Hz : cnt (claimed (threads c)) i = 0%nat) by (rewrite (i_cnt _ _ I), Hs; auto).
           pose proof (cnt_le _ _ _ i Ht) as Hle. unfold claims in Hle; simpl in Hle. rewrite app_nil_r in Hle.
           eapply (inv_change size c t _ _ i Available Changing I Ht Hs); unfold claims; simpl; rewrite ?app_nil_r, ?cnt_app, ?cnt1, ?Z.eqb_refl; try lia.
           ++ intros n Hn. rewrite cnt_app, cnt1. destruct (Z.eqb_spec i n); [congruence|]. lia.
           ++ split; simpl.
              ** intros n Hn. rewrite (idx_put _ _ _ _ _ Hs). destruct (Z.eqb_spec n i) as [->|]; [|auto]. apply cnt_in in Hn. lia.
              ** rewrite (idx_put _ _ _ _ _ Hs), Z.eqb_refl. auto.
        -- eapply inv_same; eauto. split; simpl; auto.
    + simpl in O2. rewrite O2 in Ho. inversion Ho; subst; simpl. eapply inv_same; eauto. split; auto.
    + simpl in O2. inversion Ho; subst; simpl. pose proof (inv_claim _ _ _ _ n _ I Ht eq_refl O2 ltac:(discriminate)) as Hz. simpl in Hz.
      assert (Hm1 : (n =? -1) = false) by (apply Z.eqb_neq; apply idx_range in O2; lia). rewrite Hm1.
      eapply (inv_change size c t _ _ n Changing Unavailable I Ht O2); unfold claims; simpl; rewrite ?app_nil_r, ?cnt_app, ?cnt_cons, ?cnt_nil, ?cnt1, ?Z.eqb_refl; simpl; try lia.
      * intros k Hk. rewrite ?cnt_app, ?cnt_cons, ?cnt_nil, ?cnt1. destruct (Z.eqb_spec n k); [congruence|]. lia.
      * split; simpl; auto. intros k Hk. rewrite (idx_put _ _ _ _ _ O2). destruct (Z.eqb_spec k n); auto. destruct Hk as [Hk|Hk]; [congruence|auto].
    + simpl in O2. rewrite (cas_ok _ _ _ _ _ O2) in Ho. simpl in Ho. inversion Ho; subst; simpl.
      pose proof (inv_claim _ _ _ _ n _ I Ht eq_refl O2 ltac:(discriminate)) as Hz. simpl in Hz.
      eapply (inv_change size c t _ _ n Unavailable Changing I Ht O2); unfold claims; simpl; rewrite ?app_nil_r, ?cnt_app, ?cnt_cons, ?cnt_nil, ?cnt1, ?Z.eqb_refl; simpl; try lia.
      split; simpl; [|rewrite (idx_put _ _ _ _ _ O2), Z.eqb_refl; auto]. intros k Hk. rewrite (idx_put _ _ _ _ _ O2).
      destruct (Z.eqb_spec k n) as [->|]; auto. apply cnt_in in Hk. lia.
    + simpl in O2. rewrite O2 in Ho. inversion Ho; subst; simpl. eapply inv_same; eauto. split; auto.
    + simpl in O2. inversion Ho; subst; simpl. pose proof (inv_claim _ _ _ _ n _ I Ht eq_refl O2 ltac:(discriminate)) as Hz. simpl in Hz.
      eapply (inv_change size c t _ _ n Changing Available I Ht O2); unfold claims; simpl; rewrite ?app_nil_r, ?cnt_app, ?cnt_cons, ?cnt_nil, ?cnt1, ?Z.eqb_refl; simpl; try lia.
      * intros k Hk. rewrite ?cnt_app, ?cnt_cons, ?cnt_nil, ?cnt1. destruct (Z.eqb_spec n k); [congruence|]. lia.
      * split; simpl; auto. intros k Hk. rewrite (idx_put _ _ _ _ _ O2). destruct (Z.eqb_spec k n) as [->|]; auto. apply cnt_in in Hk. lia.
  - pose proof I as [L C O]. pose proof (O _ _ Ht) as [T1 T2]. pose proof (O _ _ Hu) as [U1 U2].
    assert (Hu' : nth_error (set_nth t {| at_ := at_ th; owns := without n (owns th) |} (threads c)) u = Some uh) by (rewrite setnth_other; auto).
    constructor; simpl; auto.
    + intros k. pose proof (cnt_set _ _ _ {| at_ := at_ uh; owns := n :: owns uh |} k Hu') as A.
      pose proof (cnt_set _ _ _ {| at_ := at_ th; owns := without n (owns th) |} k Ht) as B.
      unfold claims in A, B; simpl in A, B. rewrite ?cnt_cons, ?cnt_app in A. rewrite ?cnt_app in B. pose proof (cnt_without _ n k Hn). rewrite C in B. unfold claims in A; simpl in A; rewrite ?cnt_cons, ?cnt_app in A. lia.
    + intros v vh Hv. apply setnth_inv in Hv. destruct Hv as [[-> ->]|[N1 Hv]].
      * split; simpl; auto. intros k [<-|Hk]; auto.
      * apply setnth_inv in Hv. destruct Hv as [[-> ->]|[N2 Hv]]; eauto. split; simpl; auto. intros k Hk. apply T1. eapply without_incl; eauto.
Qed.

Lemma inv_start : forall size, inv size (start size).
Proof.
  intros. constructor; simpl.
  - apply repeat_length.
  - intros n. unfold fresh. destruct (idx (repeat Available size) n) eqn:E; auto. unfold idx in E. destruct (n <? 0); [discriminate|].
    destruct (nth_error (repeat Available size) (Z.to_nat n)) eqn:F; inversion E; subst. apply nth_error_In, repeat_spec in F. subst. auto.
  - intros [|t] th H; discriminate.
Qed.

Lemma inv_exec : forall size c ls d, inv size c -> exec size true c ls d -> inv size d.
Proof. intros size c ls d I H. induction H; auto. eapply inv_step; [|eassumption]; auto. Qed.

Lemma inv_reach : forall size ls c, exec size true (start size) ls c -> inv size c.
Proof. intros. eapply inv_exec; [|eassumption]. apply inv_start. Qed.

(** * Consequences *)

Lemma inv_one : forall size c t u th uh n, inv size c -> nth_error (threads c) t = Some th -> nth_error (threads c) u = Some uh ->
  In n (claims th) -> In n (claims uh) -> t = u.
Proof.
  intros size c t u th uh n I Ht Hu H1 H2. destruct (Nat.eq_dec t u); auto. exfalso. apply cnt_in in H1. apply cnt_in in H2.
  pose proof (cnt_two _ _ _ _ _ n n0 Ht Hu). rewrite (i_cnt _ _ I) in H. unfold expected in H. destruct (idx (slots c) n) as [[]| | |]; lia.
Qed.
Lemma inv_owns_pc : forall size c t th n, inv size c -> nth_error (threads c) t = Some th -> In n (owns th) -> In n (pc_claim (at_ th)) -> False.
Proof.
  intros size c t th n I Ht H1 H2. apply cnt_in in H1. apply cnt_in in H2. pose proof (cnt_le _ _ _ n Ht). unfold claims in H.
  rewrite (i_cnt _ _ I), cnt_app in H. unfold expected in H. destruct (idx (slots c) n) as [[]| | |]; lia.
Qed.
Lemma held_cnt : forall l n, (cnt (flat_map owns l) n <= cnt (claimed l) n)%nat.
Proof. induction l as [|x l IH]; intros n; simpl; auto. unfold claims. rewrite !cnt_app. specialize (IH n). unfold claimed, claims in *. lia. Qed.
Lemma inv_nodup : forall size c, inv size c -> NoDup (all_held c).
Proof.
  intros size c I. apply (NoDup_count_occ Z.eq_dec). intros n. pose proof (held_cnt (threads c) n). rewrite (i_cnt _ _ I) in H.
  unfold expected, cnt, all_held in *. destruct (idx (slots c) n) as [[]| | |]; lia.
Qed.
Lemma handling_claim : forall p n, (p = TakeCheck n \/ p = TakeStore n \/ p = Release n \/ p = PutCheck n \/ p = PutStore n) <-> In n (pc_claim p).
Proof.
  intros p n. split.
  - intros [->|[->|[->|[->| ->]]]]; simpl; auto.
  - destruct p; simpl; intros H; destruct H as [->|[]] || destruct H; auto.
Qed.
Lemma inv_busy : forall size c n, inv size c -> 0 <= n < Z.of_nat size -> idx (slots c) n <> Ok Available <-> in_use c n.
Proof.
  intros size c n I R. rewrite <- (i_len _ _ I) in R. destruct (idx_some _ _ R) as [s Hs]. rewrite Hs. split.
  - intros H. assert (Hc : (0 < cnt (claimed (threads c)) n)%nat) by (rewrite (i_cnt _ _ I), Hs; destruct s; simpl; try congruence; lia).
    apply cnt_in in Hc. unfold claimed in Hc. apply in_flat_map in Hc. destruct Hc as [th [H1 H2]]. apply In_nth_error in H1. destruct H1 as [t Ht].
    exists t. unfold claims in H2. apply in_app_or in H2. destruct H2 as [H2|H2].
    + left. exists th. auto.
    + right. exists th. split; auto. apply handling_claim. auto.
  - intros [t [[th [Ht H]]|[th [Ht H]]]] E; inversion E; subst s; destruct (i_ok _ _ I _ _ Ht) as [O1 O2].
    + rewrite (O1 _ H) in Hs. discriminate.
    + destruct H as [H|[H|[H|[H|H]]]]; rewrite H in O2; simpl in O2; congruence.
Qed.

(** * Executions *)
Lemma exec_inv : forall size b c ls e, exec size b c ls e -> (ls = [] /\ e = c) \/ exists q d l, ls = q ++ [l] /\ exec size b c q d /\ step size b d l e.
Proof. intros size b c ls e H. destruct H; eauto 10. Qed.
Lemma exec_split : forall size b c ls1 ls2 e, exec size b c (ls1 ++ ls2) e -> exists d, exec size b c ls1 d /\ exec size b d ls2 e.
Proof.
  intros size b c ls1 ls2. revert ls1. induction ls2 as [|l ls2 IH] using rev_ind; intros ls1 e H.
  - rewrite app_nil_r in H. exists e. split; auto. constructor.
  - rewrite app_assoc in H. destruct (exec_inv _ _ _ _ _ H) as [[Heq _]|[q [d0 [l0 [Heq [Hx Hs]]]]]]; [destruct (ls1 ++ ls2); discriminate|].
    apply app_inj_tail in Heq. destruct Heq as [<- <-]. apply IH in Hx. destruct Hx as [d [H1 H2]]. exists d. split; auto. econstructor; eauto.
Qed.
Lemma exec_one : forall size b c l e, exec size b c [l] e -> step size b c l e.
Proof.
  intros size b c l e H. destruct (exec_inv _ _ _ _ _ H) as [[Heq _]|[q [d0 [l0 [Heq [Hx Hs]]]]]]; [discriminate|].
  destruct q as [|x q]; [|destruct q; discriminate]. simpl in Heq. inversion Heq; subst.
  destruct (exec_inv _ _ _ _ _ Hx) as [[_ ->]|[q [d1 [l1 [Hq _]]]]]; auto. destruct q; discriminate.
Qed.
Lemma exec_snoc_inv : forall size b c ls l e, exec size b c (ls ++ [l]) e -> exists d, exec size b c ls d /\ step size b d l e.
Proof. intros. apply exec_split in H. destruct H as [d [H1 H2]]. exists d. split; auto. apply exec_one; auto. Qed.

(** A step changes the position of thread [t] only by a call or an access of its own. *)
Lemma step_pc : forall size b c l d t th, step size b c l d -> nth_error (threads c) t = Some th ->
  exists th', nth_error (threads d) t = Some th' /\
   ((at_ th' = at_ th /\ access_ofb t l = false /\ ~ call_by t l) \/
    (exists k, l = LCall t k /\ at_ th = Idle /\ at_ th' = entry size k) \/
    (exists o, advance size (at_ th) (slots c) = Some o /\ l = label_of t (at_ th) o /\ th' = settle th o)).
Proof.
  intros size b c l d t th H Ht. destruct H as [c|c u uh k Hu Hi Hp|c u uh o Hu Ho|c u v uh vh n N Hu Hv Hn]; simpl.
  - exists th. split; [rewrite nth_error_app1; auto; apply nth_error_Some; congruence|]. left. repeat split; auto.
  - destruct (Nat.eq_dec u t) as [->|Hne].
    + rewrite Ht in Hu. inversion Hu; subst uh. eexists. split; [eapply setnth_at; eauto|]. right. left. exists k. auto.
    + exists th. rewrite setnth_other by auto. split; auto.
  - destruct (Nat.eq_dec u t) as [->|Hne].
    + rewrite Ht in Hu. inversion Hu; subst uh. eexists. split; [eapply setnth_at; eauto|]. right. right. exists o. auto.
    + exists th. rewrite setnth_other by auto. split; auto. left. split; auto.
      assert (Nat.eqb u t = false) by (apply Nat.eqb_neq; auto). unfold label_of. destruct o; [destruct (at_ uh) as [|? []| | | | | | |]|]; simpl; auto.
  - destruct (Nat.eq_dec v t) as [->|Hne].
    + rewrite Ht in Hv. inversion Hv; subst vh. eexists. split.
      * eapply setnth_at. rewrite setnth_other; eauto.
      * left. auto.
    + rewrite setnth_other by auto. destruct (Nat.eq_dec u t) as [->|Hne2].
      * rewrite Ht in Hu. inversion Hu; subst uh. eexists. split; [eapply setnth_at; eauto|]. left. auto.
      * exists th. rewrite setnth_other by auto. split; auto.
Qed.

Lemma label_access : forall t p o, access_ofb t (label_of t p o) = true.
Proof. intros. unfold label_of. destruct o; [destruct p as [|? []| | | | | | |]|]; simpl; apply Nat.eqb_refl. Qed.
Lemma label_not_call : forall t u p o, ~ call_by u (label_of t p o).
Proof. intros. unfold label_of. destruct o; [destruct p as [|? []| | | | | | |]|]; simpl; auto. Qed.

Lemma step_call : forall size b c t k d, step size b c (LCall t k) d -> exists th, nth_error (threads c) t = Some th /\ at_ th = Idle /\
  (forall n, b = true -> k = Unacquire n -> In n (owns th)) /\
  d = {| slots := slots c; threads := set_nth t {| at_ := entry size k; owns := gives_back k (owns th) |} (threads c) |}.
Proof.
  intros size b c t k d H. remember (LCall t k) as l eqn:E. destruct H as [c|c u uh k' Hu Hi Hp|c u uh o Hu Ho|c u v uh vh n N Hu Hv Hn]; try discriminate.
  - inversion E; subst. exists uh. auto.
  - exfalso. pose proof (label_not_call u t (at_ uh) o) as Q. rewrite E in Q. apply Q. reflexivity.
Qed.

(** Where a thread can be during a call, given the labels seen since the call. *)
Definition during (size : nat) (t : nat) (k : call) (mid : list label) (p : pc) : Prop :=
  match k with
  | Acquire => (exists rest, p = Scan true rest) \/ exists n, p = TakeCheck n \/ p = TakeStore n
  | TryAcquire => (exists done rest, p = Scan false rest /\ visits size 0 = done ++ rest /\
                     forall i, In i done -> exists m1 m2, mid = m1 ++ LTry t i false :: m2) \/
                  exists n, p = TakeCheck n \/ p = TakeStore n
  | Unacquire n => p = Release n \/ p = PutCheck n \/ p = PutStore n
  end.

Lemma during_more : forall size t k mid l p, during size t k mid p -> during size t k (mid ++ [l]) p.
Proof.
  intros size t k mid l p H. destruct k; simpl in *; auto. destruct H as [[done [rest [A [B C]]]]|H]; auto. left. exists done, rest.
  split; auto. split; auto. intros i Hi. destruct (C i Hi) as [m1 [m2 ->]]. exists m1, (m2 ++ [l]). rewrite <- app_assoc. auto.
Qed.

(** What an access does to the position. *)
Lemma during_advance : forall size t k mid m p o, during size t k mid p -> advance size p m = Some o ->
  match o with
  | Go p' _ => during size t k (mid ++ [label_of t p o]) p' \/ p' = Died \/ p' = Broken
  | Return v _ => match k with
                  | Acquire => exists n, v = Some n /\ p = TakeStore n
                  | TryAcquire => (v = Some (-1) /\ forall i, In i (visits size 0) -> exists m1 m2, mid = m1 ++ LTry t i false :: m2) \/ (exists n, v = Some n /\ p = TakeStore n)
                  | Unacquire n => v = None
                  end
  end.
Proof.
  intros size t k mid m p o D H. destruct k as [| |n]; simpl in D.
  - destruct D as [[rest ->]|[n [-> | ->]]]; simpl in H.
    + destruct rest as [|i rest]; inversion H; subst; simpl; [left; eauto|].
      destruct (cas m i Available Changing) as [[[] m']| | |]; simpl; eauto 7.
    + inversion H; subst. destruct (idx m n) as [[]| | |]; simpl; eauto 7.
    + inversion H; subst. simpl. eauto.
  - destruct D as [[done [rest [-> [B C]]]]|[n [-> | ->]]]; simpl in H.
    + destruct rest as [|i rest]; inversion H; subst.
      * left. split; auto. intros i Hi. apply C. rewrite B, app_nil_r in Hi. auto.
      * destruct (cas m i Available Changing) as [[[] m']| | |] eqn:Ec; simpl; eauto 7.
        left. left. exists (done ++ [i]), rest. split; auto. split; [rewrite <- app_assoc; auto|].
        intros j Hj. apply in_app_or in Hj. destruct Hj as [Hj|[->|[]]].
        -- destruct (C j Hj) as [m1 [m2 ->]]. exists m1, (m2 ++ [LTry t i false]). rewrite <- app_assoc. auto.
        -- exists mid, []. auto.
    + inversion H; subst. destruct (idx m n) as [[]| | |]; simpl; eauto 7.
    + inversion H; subst. simpl. right. eauto.
  - destruct D as [->|[-> | ->]]; simpl in H; inversion H; subst; auto.
    + destruct (cas m n Unavailable Changing) as [[? m']| | |]; simpl; auto.
    + destruct (idx m n) as [[]| | |]; simpl; auto.
Qed.

(** Position of the thread during and after its call. *)
Lemma during_exec : forall size b t k mid c d, step size b c (LCall t k) d -> forall e, exec size b d mid e -> Forall (fun l => ~ call_by t l) mid ->
  exists th, nth_error (threads e) t = Some th /\ (during size t k mid (at_ th) \/ at_ th = Idle \/ at_ th = Died \/ at_ th = Broken).
Proof.
  intros size b t k mid c d H0. induction mid as [|l mid IH] using rev_ind; intros e H F.
  - destruct (exec_inv _ _ _ _ _ H) as [[_ ->]|[q [d1 [l1 [Hq _]]]]]; [|destruct q; discriminate]. apply step_call in H0. destruct H0 as [th [Ht [_ [_ ->]]]].
    eexists. split; [simpl; eapply setnth_at; eauto|]. left. destruct k; simpl; eauto. left. exists [], (visits size 0). simpl. repeat split; auto. intros ? [].
  - apply exec_snoc_inv in H. destruct H as [e0 [H1 H2]]. apply Forall_app in F. destruct F as [F1 F2].
    apply Forall_inv in F2. destruct (IH _ H1 F1) as [th [Ht D]]. destruct (step_pc _ _ _ _ _ _ _ H2 Ht) as [th' [Ht' [[E _]|[[k' [-> _]]|[o [A [-> ->]]]]]]].
    + exists th'. split; auto. rewrite E. destruct D as [D|D]; auto. left. apply during_more. auto.
    + exfalso. apply F2. reflexivity.
    + eexists. split; [exact Ht'|]. destruct D as [D|[D|[D|D]]]; try (rewrite D in A; discriminate).
      pose proof (during_advance _ _ _ _ _ _ _ D A) as Q. destruct o as [p' m'|v m'].
      * destruct Q as [Q|[Q|Q]]; simpl; auto.
      * right. left. destruct v; reflexivity.
Qed.

(** The label of a return tells that the thread was inside a call. *)
Lemma step_ret : forall size b c t v d, step size b c (LRet t v) d -> exists th m, nth_error (threads c) t = Some th /\ advance size (at_ th) (slots c) = Some (Return v m) /\
  d = {| slots := m; threads := set_nth t (settle th (Return v m)) (threads c) |}.
Proof.
  intros size b c t v d H. remember (LRet t v) as l eqn:E. destruct H as [c|c u uh k' Hu Hi Hp|c u uh o Hu Ho|c u v' uh vh n N Hu Hv Hn]; try discriminate.
  unfold label_of in E. destruct o as [p' m'|v' m'].
  - destruct (at_ uh) as [|? []| | | | | | |]; discriminate.
  - inversion E; subst. exists uh, m'. auto.
Qed.
Lemma step_try : forall size b c t i ok d, step size b c (LTry t i ok) d -> exists th r rest, nth_error (threads c) t = Some th /\ at_ th = Scan r (i :: rest) /\
  (ok = false -> idx (slots c) i <> Ok Available).
Proof.
  intros size b c t i ok d H. remember (LTry t i ok) as l eqn:E. destruct H as [c|c u uh k' Hu Hi Hp|c u uh o Hu Ho|c u v' uh vh n N Hu Hv Hn]; try discriminate.
  unfold label_of in E. destruct o as [p' m'|v' m']; [|discriminate].
  destruct (at_ uh) as [|r [|j rest]| | | | | | |] eqn:E1; try discriminate. inversion E; subst. exists uh, r, rest. split; auto. split; auto.
  intros Hp Ha. simpl in Ho. rewrite (cas_ok _ _ _ _ _ Ha) in Ho. simpl in Ho. destruct r; inversion Ho; subst; discriminate.
Qed.

(** Accesses left to a call that does not retry. *)
Definition left_to (p : pc) : nat :=
  match p with
  | Scan _ rest => length rest + 2
  | TakeCheck _ => 2 | TakeStore _ => 1
  | Release _ => 3 | PutCheck _ => 2 | PutStore _ => 1
  | _ => 0
  end.
Lemma left_advance : forall size p m o, advance size p m = Some o -> (forall rest, p <> Scan true rest) -> (left_to (match o with Go p' _ => p' | Return _ _ => Idle end) < left_to p)%nat.
Proof.
  intros size p m o H Hn. destruct p as [|r rest|n|n|n|n|n| |]; simpl in H; try discriminate.
  - destruct r; [exfalso; eapply Hn; eauto|]. destruct rest as [|i rest]; inversion H; subst; simpl; [lia|].
    destruct (cas m i Available Changing) as [[[] ?]| | |]; simpl; lia.
  - inversion H; subst. destruct (idx m n) as [[]| | |]; simpl; lia.
  - inversion H; subst; simpl; lia.
  - inversion H; subst. destruct (cas m n Unavailable Changing) as [[? ?]| | |]; simpl; lia.
  - inversion H; subst. destruct (idx m n) as [[]| | |]; simpl; lia.
  - inversion H; subst; simpl; lia.
Qed.
Lemma bound_exec : forall size b t k mid c d, step size b c (LCall t k) d -> k <> Acquire -> forall e, exec size b d mid e -> Forall (fun l => ~ call_by t l) mid ->
  exists th, nth_error (threads e) t = Some th /\ (length (filter (access_ofb t) mid) + left_to (at_ th) <= left_to (entry size k))%nat.
Proof.
  intros size b t k mid c d H0 Hk. induction mid as [|l mid IH] using rev_ind; intros e H F.
  - destruct (exec_inv _ _ _ _ _ H) as [[_ ->]|[q [d1 [l1 [Hq _]]]]]; [|destruct q; discriminate]. pose proof (step_call _ _ _ _ _ _ H0) as [th [Ht [_ [_ ->]]]].
    eexists. split; [simpl; eapply setnth_at; eauto|]. simpl. lia.
  - pose proof H as Hall. apply exec_snoc_inv in H. destruct H as [e0 [H1 H2]]. pose proof F as F'. apply Forall_app in F. destruct F as [F1 F2]. apply Forall_inv in F2.
    destruct (IH _ H1 F1) as [th [Ht D]]. rewrite filter_app, app_length. simpl.
    destruct (step_pc _ _ _ _ _ _ _ H2 Ht) as [th' [Ht' [[E [E2 _]]|[[k' [-> _]]|[o [A [-> ->]]]]]]].
    + exists th'. split; auto. rewrite E, E2. simpl. lia.
    + exfalso. apply F2. reflexivity.
    + eexists. split; [exact Ht'|]. rewrite label_access. simpl. destruct (during_exec _ _ _ _ _ _ _ H0 _ H1 F1) as [th2 [Ht2 D2]].
      rewrite Ht in Ht2. inversion Ht2; subst th2.
      assert (Hn : forall rest, at_ th <> Scan true rest).
      { intros rest Hx. rewrite Hx in D2. destruct D2 as [D2|[D2|[D2|D2]]]; try discriminate. destruct k; simpl in D2; [congruence| |].
        - destruct D2 as [[? [? [Q _]]]|[? [Q|Q]]]; discriminate.
        - destruct D2 as [Q|[Q|Q]]; discriminate. }
      pose proof (left_advance _ _ _ _ A Hn). destruct o as [p' m'|v m']; simpl in *; [lia|]. assert (at_ (settle th (Return v m')) = Idle) by (destruct v; auto).
      simpl in H3. rewrite H3. simpl. lia.
Qed.
