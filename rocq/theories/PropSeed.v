(** C63: the default seed, the variable PROPTEST_SEED and the printed seed. *)
From Coq Require Import String List ZArith Bool Lia.
From Verif Require Import Base RandomModel TreeModel EffModel IntegralProof PrintModel ContextModel RunnerModel StatefulModel ConcModel ConcGoModel SeedModel SeedSpec SeedProof.
Import ListNotations.
Local Open Scope Z_scope.

Definition with_variable (t : text) (c : Z) : moment := {| variable := Some t; clock := c |}.
Definition without_variable (c : Z) : moment := {| variable := None; clock := c |}.

(** Every text has exactly one meaning. *)
Theorem C63_meaning : forall t, exists z, means t z /\ forall w, means t w -> w = z.
Proof. intros t. destruct (means_ex t) as [z H]. exists z. split; auto. intros w Hw. eapply means_fun; eauto. Qed.
Example C63_meaning_ex : means (lit " +42nd") 42 /\ means (lit "-7") (-7) /\ means (lit "seed") 0 /\ means (lit "0x10") 0 /\ means (lit "- 5") 0.
Proof. repeat match goal with |- _ /\ _ => split end; apply means_raw. Qed.

(** The first seed asked for when the variable is set: its meaning modulo 2^64, if that is a signed 64-bit number; undefined behaviour otherwise. *)
Theorem C63_variable : forall t z c, means t z ->
  (- 2 ^ 63 <= z < 2 ^ 63 -> exists st, getGlobalSeed (with_variable t c) noStatics = Ok (z mod 2 ^ 64, st)) /\
  (~ - 2 ^ 63 <= z < 2 ^ 63 -> getGlobalSeed (with_variable t c) noStatics = UB).
Proof.
  intros t z c H. unfold getGlobalSeed. cbn [s_env noStatics variable with_variable]. rewrite (atoll_means t z H). unfold chk64, INT64_MIN, INT64_MAX.
  destruct (Z.leb_spec (- 2 ^ 63) z); destruct (Z.leb_spec z (2 ^ 63 - 1)); cbn [andb bind]; split; intros R; try (eexists; reflexivity); try reflexivity; exfalso; lia.
Qed.
Example C63_variable_ex : getGlobalSeed (with_variable (lit " +42nd") 9) noStatics = Ok (42, {| s_env := Some (Some (lit " +42nd")); s_time := None |}) /\
  getGlobalSeed (with_variable (lit "-1") 9) noStatics = Ok (2 ^ 64 - 1, {| s_env := Some (Some (lit "-1")); s_time := None |}) /\
  getGlobalSeed (with_variable (lit "9223372036854775808") 9) noStatics = UB /\ getGlobalSeed (with_variable (lit "seed") 9) noStatics = Ok (0, {| s_env := Some (Some (lit "seed")); s_time := None |}).
Proof. vm_compute. repeat split. Qed.

(** Without the variable, it is the time of the first call. *)
Theorem C63_time : forall c, 0 <= c < 2 ^ 64 -> exists st, getGlobalSeed (without_variable c) noStatics = Ok (c, st).
Proof. intros c H. unfold getGlobalSeed. cbn. unfold wrapU. rewrite Z.mod_small by lia. eauto. Qed.
Example C63_time_ex : exists st, getGlobalSeed (without_variable 1700000000000) noStatics = Ok (1700000000000, st).
Proof. apply C63_time. lia. Qed.

(** All tests that a process constructs get the seed of the first one, whenever they are constructed and whatever the variable is later set to. *)
Lemma later_seeds : forall l m s st, getGlobalSeed m noStatics = Ok (s, st) -> defaultSeeds l st = Ok (repeat s (length l)) .
Proof.
  intros l m s st H. unfold getGlobalSeed in H. cbn [s_env s_time noStatics] in H.
  assert (X : (exists e t, variable m = Some t /\ atoll t = Ok e /\ s = wrapU 64 e /\ st = {| s_env := Some (variable m); s_time := None |}) \/
              (variable m = None /\ st = {| s_env := Some None; s_time := Some s |})).
  { destruct (variable m) as [t|]; [left|right].
    - destruct (atoll t) as [e| | |] eqn:A; cbn [bind] in H; try discriminate. injection H as <- <-. eauto 8.
    - injection H as <- <-. auto. }
  clear H. induction l as [|m' l IH]; [reflexivity|]. cbn [defaultSeeds].
  destruct X as [(e & t & V & A & -> & ->)|(V & ->)].
  - unfold getGlobalSeed at 1. cbn [s_env s_time]. rewrite V in IH |- *. rewrite A. cbn [bind fst snd]. rewrite IH. reflexivity.
  - unfold getGlobalSeed at 1. cbn [s_env s_time bind fst snd]. rewrite IH. reflexivity.
Qed.
Theorem C63_one_seed : forall m l s st, getGlobalSeed m noStatics = Ok (s, st) -> defaultSeeds (m :: l) noStatics = Ok (repeat s (S (length l))).
Proof. intros m l s st H. cbn [defaultSeeds]. rewrite H. cbn [bind fst snd]. rewrite (later_seeds l m s st H). reflexivity. Qed.
Example C63_one_seed_ex : defaultSeeds [without_variable 1000; without_variable 2000; with_variable (lit "5") 3000] noStatics = Ok [1000; 1000; 1000] /\
  defaultSeeds [with_variable (lit "5") 10; without_variable 2000] noStatics = Ok [5; 5].
Proof. split; reflexivity. Qed.

(** The printed seed can be given to another process exactly if it is below 2^63. *)
Theorem C63_replay_iff : forall s c, 0 <= s < 2 ^ 64 ->
  ((exists st, getGlobalSeed (with_variable (dec s) c) noStatics = Ok (s, st)) <-> s < 2 ^ 63).
Proof.
  intros s c H. destruct (C63_variable (dec s) s c (dec_means s ltac:(lia))) as [A B]. split.
  - intros [st E]. destruct (Z_lt_le_dec s (2 ^ 63)); auto. rewrite B in E by lia. discriminate.
  - intros L. destruct A as [st E]; [lia|]. exists st. rewrite E, Z.mod_small by lia. reflexivity.
Qed.
Example C63_replay_iff_ex : getGlobalSeed (with_variable (dec 15665312) 0) noStatics = Ok (15665312, {| s_env := Some (Some (lit "15665312")); s_time := None |}).
Proof. vm_compute. reflexivity. Qed.

(** So the tests of a process whose default seed is below 2^63 - in particular, a time since 1970 or a variable with a value that is not negative - give the same
    results in a process started with the printed number, if the rest of what they depend on is the same. *)
Theorem C63_replay : forall m st s n c l, getGlobalSeed m noStatics = Ok (s, st) -> s < 2 ^ 63 -> printedSeed s = lit "random seed: " ++ n ->
  exists st', getGlobalSeed (with_variable n c) noStatics = Ok (s, st') /\ defaultSeeds (with_variable n c :: l) noStatics = Ok (repeat s (S (length l))).
Proof.
  intros m st s n c l H L P. unfold printedSeed in P. apply app_inv_head in P. subst n.
  assert (R : 0 <= s < 2 ^ 64).
  { unfold getGlobalSeed in H. cbn [s_env s_time noStatics] in H. destruct (variable m) as [t|].
    - destruct (atoll t); cbn [bind] in H; try discriminate. injection H as <- _. unfold wrapU. apply Z.mod_pos_bound. lia.
    - injection H as <- _. unfold wrapU. apply Z.mod_pos_bound. lia. }
  destruct (proj2 (C63_replay_iff s c R) L) as [st' E]. exists st'. split; auto. eapply C63_one_seed; eauto.
Qed.
Theorem C63_replay_run : forall E V W fuel ev f defaults explicits dr dd (sets : list (setter W)) gs (w : W) m st s n c,
  getGlobalSeed m noStatics = Ok (s, st) -> s < 2 ^ 63 -> printedSeed s = lit "random seed: " ++ n ->
  exists s' st', getGlobalSeed (with_variable n c) noStatics = Ok (s', st') /\
    forAll (E := E) (V := V) fuel ev (fold_left configure sets (mkProperty f defaults explicits dr dd s')) gs w =
    forAll fuel ev (fold_left configure sets (mkProperty f defaults explicits dr dd s)) gs w.
Proof. intros. destruct (C63_replay m st s n c [] H H0 H1) as (st' & A & _). exists s, st'. auto. Qed.
Example C63_replay_ex : exists st, getGlobalSeed (without_variable 1700000000000) noStatics = Ok (1700000000000, st) /\
  printedSeed 1700000000000 = lit "random seed: " ++ lit "1700000000000" /\ (1700000000000 < 2 ^ 63).
Proof. eexists. vm_compute. repeat split. Qed.

(** Not for every seed: a negative variable gives a seed that is printed as a number from 2^63 on, and this cannot be given back. *)
Theorem C63_replay_refuted : exists t s st, getGlobalSeed (with_variable t 0) noStatics = Ok (s, st) /\
  printedSeed s = lit "random seed: 18446744073709551615" /\ getGlobalSeed (with_variable (lit "18446744073709551615") 0) noStatics = UB.
Proof. exists (lit "-1"). eexists _, _. vm_compute. repeat split. Qed.

(** A stateful test uses the seed set, except that the largest one means the default. *)
Lemma seed_sbuild : forall E O M W dr dd gs (s : sprop E O M W), seed (sbuild dr dd gs s) = if sp_seed s =? 2 ^ 64 - 1 then gs else sp_seed s.
Proof.
  intros. change (2 ^ 64 - 1) with UINT64_MAX. unfold sbuild.
  destruct (sp_maxDurationMs s =? UINT32_MAX); destruct (sp_numRuns s =? UINT32_MAX); destruct (sp_seed s =? UINT64_MAX);
  destruct (sp_onCleanup s); destruct (sp_onStartup s); reflexivity.
Qed.
Theorem C63_set_stateful : forall E O M W dr dd gs (s : sprop E O M W) v,
  (v <> 2 ^ 64 - 1 -> seed (sbuild dr dd gs (sconfigure s (SSeed v))) = v) /\
  seed (sbuild dr dd gs (sconfigure s (SSeed (2 ^ 64 - 1)))) = gs.
Proof.
  intros. rewrite !seed_sbuild. cbn [sconfigure sp_seed]. split; [|reflexivity]. intros N. destruct (Z.eqb_spec v (2 ^ 64 - 1)); congruence.
Qed.
Example C63_set_ex : forall s : sprop replay Z unit unit, seed (sbuild 5 0 77 (sconfigure s (SSeed 12))) = 12 /\ seed (sbuild 5 0 77 (sconfigure s (SSeed 18446744073709551615))) = 77.
Proof. intros s. split; [apply (proj1 (C63_set_stateful _ _ _ _ 5%nat 0 77 s 12)); lia | apply (proj2 (C63_set_stateful _ _ _ _ 5%nat 0 77 s 0))]. Qed.

Print Assumptions C63_meaning.
Print Assumptions C63_variable.
Print Assumptions C63_time.
Print Assumptions C63_one_seed.
Print Assumptions C63_replay_iff.
Print Assumptions C63_replay.
Print Assumptions C63_replay_run.
Print Assumptions C63_replay_refuted.
Print Assumptions C63_set_stateful.
