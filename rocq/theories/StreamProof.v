From Coq Require Import List ZArith Bool Lia.
From Verif Require Import Base StreamModel StreamSpec TreeModel TreeProof.
Import ListNotations.

Definition sfrob {A} (s : stream A) : stream A :=
  match s with SNil => SNil | SCons a t => SCons a t end.
Lemma sfrob_eq : forall A (s : stream A), s = sfrob s.
Proof. destruct s; reflexivity. Qed.
Definition dfrob {A} (s : dstream A) : dstream A :=
  match s with DNil => DNil | DCons a t => DCons a t | DHang => DHang end.
Lemma dfrob_eq : forall A (s : dstream A), s = dfrob s.
Proof. destruct s; reflexivity. Qed.

Lemma transform_nil : forall A B (f : A -> B), s_transform f SNil = SNil.
Proof. intros. rewrite (sfrob_eq _ (s_transform f SNil)). reflexivity. Qed.
Lemma transform_cons : forall A B (f : A -> B) a s, s_transform f (SCons a s) = SCons (f a) (s_transform f s).
Proof. intros. rewrite (sfrob_eq _ (s_transform f (SCons a s))). reflexivity. Qed.
Lemma concat_nil : forall A (s : stream A), s_concat SNil s = s.
Proof. intros. rewrite (sfrob_eq _ (s_concat SNil s)). destruct s; reflexivity. Qed.
Lemma concat_cons : forall A a (s s' : stream A), s_concat (SCons a s) s' = SCons a (s_concat s s').
Proof. intros. rewrite (sfrob_eq _ (s_concat (SCons a s) s')). reflexivity. Qed.
Lemma take_nil : forall A n, s_take n (@SNil A) = SNil.
Proof. intros. rewrite (sfrob_eq _ (s_take n SNil)). reflexivity. Qed.
Lemma take_cons : forall A n a (s : stream A),
  s_take n (SCons a s) = if (n =? 0)%Z then SNil else SCons a (s_take (n - 1)%Z s).
Proof. intros. rewrite (sfrob_eq _ (s_take n (SCons a s))). simpl. destruct (n =? 0)%Z; reflexivity. Qed.
Lemma filter_eq : forall A fuel (crit : A -> bool) s,
  s_filter fuel crit s = match s_scan fuel crit s with
                         | Ok (Some (v, r)) => DCons v (s_filter fuel crit r)
                         | Ok None => DNil
                         | _ => DHang end.
Proof.
  intros. rewrite (dfrob_eq _ (s_filter fuel crit s)). simpl.
  destruct (s_scan fuel crit s) as [[[v r]|]| | |]; reflexivity.
Qed.

Lemma enum_transform : forall A B (f : A -> B) s l, enum s l -> enum (s_transform f s) (map f l).
Proof. induction 1; simpl. rewrite transform_nil; constructor. rewrite transform_cons; constructor; auto. Qed.

Lemma enum_concat : forall A (s s' : stream A) l l', enum s l -> enum s' l' -> enum (s_concat s s') (l ++ l').
Proof. induction 1; simpl; intros. rewrite concat_nil; auto. rewrite concat_cons; constructor; auto. Qed.

Lemma enum_take : forall A (s : stream A) l n, enum s l -> enum (s_take n s) (stake n l).
Proof.
  intros A s l n H. revert n. induction H; intros n; simpl.
  - rewrite take_nil. constructor.
  - rewrite take_cons. destruct (n =? 0)%Z; constructor; auto.
Qed.

Lemma enum_take_nonneg : forall A (s : stream A) l n, (0 <= n)%Z -> enum s l -> enum (s_take n s) (firstn (Z.to_nat n) l).
Proof. intros. rewrite <- stake_firstn by auto. apply enum_take; auto. Qed.
Lemma enum_take_neg : forall A (s : stream A) l n, (n < 0)%Z -> enum s l -> enum (s_take n s) l.
Proof. intros. rewrite <- (stake_neg _ l n) by auto. apply enum_take; auto. Qed.

Lemma enum_fun : forall A (s : stream A) l l', enum s l -> enum s l' -> l = l'.
Proof. intros A s l l' H. revert l'. induction H; intros l' H'; inversion H'; subst; auto. f_equal; auto. Qed.

Lemma prefix_transform : forall A B (f : A -> B) n s, prefix n (s_transform f s) = map f (prefix n s).
Proof.
  induction n; intros s; auto. destruct s.
  rewrite transform_nil; auto. rewrite transform_cons; simpl; congruence.
Qed.

Lemma prefix_concat_fin : forall A (s s' : stream A) l n, enum s l ->
  prefix n (s_concat s s') = firstn n l ++ prefix (n - length l) s'.
Proof.
  intros A s s' l n H. revert n. induction H; intros n.
  - rewrite concat_nil, firstn_nil. simpl. rewrite Nat.sub_0_r. auto.
  - rewrite concat_cons. destruct n; simpl; auto. rewrite IHenum. auto.
Qed.

Lemma prefix_concat_inf : forall A (s s' : stream A) n, infinite s -> prefix n (s_concat s s') = prefix n s.
Proof.
  intros A s s' n. revert s. induction n; intros s H; auto.
  destruct s as [|a t]; [specialize (H 1); discriminate|]. rewrite concat_cons. simpl. f_equal. apply IHn.
  intros m. specialize (H (S m)). simpl in H. congruence.
Qed.

Lemma enum_take_any : forall A n (s : stream A), (0 <= n)%Z -> enum (s_take n s) (prefix (Z.to_nat n) s).
Proof.
  intros A n s Hn. rewrite <- (Z2Nat.id n) at 1 by auto. generalize (Z.to_nat n). clear n Hn. intros n.
  revert s. induction n; intros [|a s].
  - simpl. rewrite take_nil. constructor.
  - simpl. rewrite take_cons. simpl. constructor.
  - simpl. rewrite take_nil. constructor.
  - rewrite take_cons. destruct (Z.eqb_spec (Z.of_nat (S n)) 0); [lia|].
    replace (Z.of_nat (S n) - 1)%Z with (Z.of_nat n) by lia. simpl. constructor. auto.
Qed.

Lemma prefix_take_neg : forall A (s : stream A) n k, (n < 0)%Z -> prefix k (s_take n s) = prefix k s.
Proof.
  intros A s n k. revert s n. induction k; intros s n H; auto.
  destruct s. rewrite take_nil; auto. rewrite take_cons. destruct (Z.eqb_spec n 0); [lia|]. simpl.
  rewrite IHk by lia. auto.
Qed.

Lemma it_collect_enum : forall A (s : stream A) l fuel, enum s l -> length l < fuel -> it_collect fuel s = Ok l.
Proof.
  intros A s l fuel H. revert fuel. induction H; intros [|fuel] Hf; simpl in *; try lia; auto.
  rewrite IHenum by lia. auto.
Qed.

Lemma enum_prefix : forall A (s : stream A) l n, enum s l -> prefix n s = firstn n l.
Proof. intros A s l n H. revert n. induction H; destruct n; simpl; auto. congruence. Qed.

Lemma scan_found : forall A (crit : A -> bool) k s v m, filter crit (prefix k s) = v :: m ->
  exists rest k', k' < k /\ (forall f, k <= f -> s_scan f crit s = Ok (Some (v, rest)))
                  /\ filter crit (prefix k' rest) = m.
Proof.
  induction k; intros s v m H; simpl in H; [discriminate|]. destruct s as [|a t]; [discriminate|].
  simpl in H. destruct (crit a) eqn:E.
  - inversion H; subst. exists t, k. split; [lia|]. split; auto. intros [|f] Hf; [lia|]. simpl. rewrite E. auto.
  - destruct (IHk _ _ _ H) as [rest [k' [H1 [H2 H3]]]]. exists rest, k'. split; [lia|]. split; auto.
    intros [|f] Hf; [lia|]. simpl. rewrite E. apply H2. lia.
Qed.

Lemma filter_prefix : forall A (crit : A -> bool) fuel k s, k <= fuel ->
  dprefix (length (filter crit (prefix k s))) (s_filter fuel crit s) = filter crit (prefix k s).
Proof.
  intros A crit fuel k s Hk. remember (filter crit (prefix k s)) as m eqn:E. symmetry in E.
  revert k s Hk E. induction m as [|v m IH]; intros k s Hk E; auto.
  destruct (scan_found _ _ _ _ _ _ E) as [rest [k' [H1 [H2 H3]]]].
  rewrite filter_eq, H2 by auto. simpl. f_equal. apply IH with (k := k'); auto. lia.
Qed.

Lemma scan_none : forall A (crit : A -> bool) s l f, enum s l -> filter crit l = [] -> length l < f ->
  s_scan f crit s = Ok None.
Proof.
  intros A crit s l f H. revert f. induction H; intros [|f] Hc Hf; simpl in *; try lia; auto.
  destruct (crit a); [discriminate|]. apply IHenum; auto. lia.
Qed.

Lemma scan_enum : forall A (crit : A -> bool) s l v m f, enum s l -> filter crit l = v :: m -> length l < f ->
  exists s' l', s_scan f crit s = Ok (Some (v, s')) /\ enum s' l' /\ filter crit l' = m /\ length l' < length l.
Proof.
  intros A crit s l v m f H. revert v m f. induction H; intros v m f Hc Hf; simpl in *; [discriminate|].
  destruct f; [lia|]. simpl. destruct (crit a) eqn:E.
  - inversion Hc; subst. exists s, l. auto.
  - destruct (IHenum _ _ f Hc ltac:(lia)) as [s' [l' [H1 [H2 [H3 H4]]]]]. exists s', l'. repeat split; auto.
Qed.

Lemma enum_filter : forall A (crit : A -> bool) fuel s l, enum s l -> length l < fuel ->
  denum (s_filter fuel crit s) (filter crit l).
Proof.
  intros A crit fuel s l H Hf. remember (filter crit l) as m eqn:E. symmetry in E. revert s l H Hf E.
  induction m as [|v m IH]; intros s l H Hf E.
  - rewrite filter_eq, (scan_none _ _ _ _ _ H E Hf). constructor.
  - destruct (scan_enum _ _ _ _ _ _ _ H E Hf) as [s' [l' [H1 [H2 [H3 H4]]]]].
    rewrite filter_eq, H1. constructor. apply IH with (l := l'); auto. lia.
Qed.

Lemma it_next_empty : forall A, it_next (@SNil A) = Throw EInvalidArgument.
Proof. reflexivity. Qed.
