(** C51: results of forked processes. *)
From Coq Require Import List ZArith Bool Lia.
From Verif Require Import PipeModel.
Import ListNotations.
Local Open Scope list_scope.
Local Open Scope Z_scope.

#[local] Arguments Z.mul : simpl never.
#[local] Arguments Z.div : simpl never.
#[local] Arguments Z.modulo : simpl never.

Lemma le_len : forall n x, length (le n x) = n.
Proof. induction n; intros; cbn; auto. Qed.
Lemma unle_le : forall n x, 0 <= x < 256 ^ Z.of_nat n -> unle (le n x) = x.
Proof.
  induction n as [|n IH]; intros x Hx; [cbn in Hx; cbn; lia|]. cbn [le unle]. rewrite Nat2Z.inj_succ, Z.pow_succ_r in Hx by lia.
  rewrite IH by (split; [apply Z.div_pos; lia|apply Z.div_lt_upper_bound; lia]). pose proof (Z.div_mod x 256). lia.
Qed.
#[local] Opaque le.
Lemma read_full : forall d n l r, (forall m, moves d m = m) -> n = Z.of_nat (length l) -> sysRead d n (l ++ r) = Some (l, r).
Proof.
  intros d n l r Hd ->. unfold sysRead. destruct l as [|b l]; [reflexivity|]. replace (Z.of_nat (length (b :: l)) =? 0) with false by (symmetry; apply Z.eqb_neq; cbn [length]; lia).
  assert (Hm := Hd 1). assert (E : firstn (Z.to_nat (moves d (Z.min (Z.of_nat (length (b :: l))) (Z.of_nat (length ((b :: l) ++ r)))))) ((b :: l) ++ r) = b :: l /\
    skipn (Z.to_nat (moves d (Z.min (Z.of_nat (length (b :: l))) (Z.of_nat (length ((b :: l) ++ r)))))) ((b :: l) ++ r) = r).
  { rewrite Hd, app_length, Z.min_l by lia. rewrite Nat2Z.id, firstn_app, firstn_all, skipn_app, skipn_all, Nat.sub_diag. cbn. rewrite app_nil_r. auto. }
  destruct E as [E1 E2]. destruct d; cbn [app] in *; rewrite ?E1, ?E2; try discriminate Hm; reflexivity.
Qed.
Lemma read_empty : forall d n, 0 < n -> d <> Intr -> sysRead d n [] = None.
Proof. intros d n Hn Hd. unfold sysRead. replace (n =? 0) with false by (symmetry; apply Z.eqb_neq; lia). destruct d; congruence. Qed.
Lemma store_all : forall X (a b : list X), length a = length b -> store a b = a.
Proof. intros X a b E. unfold store. rewrite E, skipn_all, app_nil_r. auto. Qed.

(** The calls go as far as they can. *)
Definition whole (d : nat -> io) : Prop := forall n m, moves (d n) m = m.
(** Messages that fit memory. *)
Definition fits (r : result) : Prop := Z.of_nat (length (payload r)) < 2 ^ 64.

(** What is written for a result. *)
Lemma write_whole : forall cap w r p, whole w ->
  pipeWrite cap w r p = (if Z.of_nat (length p) + 9 + Z.of_nat (length (payload r)) <=? cap
    then Some (p ++ (if success r then 1 else 0) :: le 8 (Z.of_nat (length (payload r))) ++ payload r) else None).
Proof.
  intros cap w r p Hw. assert (E : forall k data q, sysWrite cap (w k) data q = if Z.of_nat (length q) + Z.of_nat (length data) <=? cap then Some (q ++ data) else None).
  { intros. unfold sysWrite. rewrite Hw, Nat2Z.id, firstn_all. auto. }
  unfold pipeWrite. rewrite E. cbn [length].
  destruct (Z.leb_spec (Z.of_nat (length p) + 9 + Z.of_nat (length (payload r))) cap).
  - destruct (Z.leb_spec (Z.of_nat (length p) + Z.of_nat 1) cap); [|lia]. rewrite E, app_length, le_len. cbn [length].
    destruct (Z.leb_spec (Z.of_nat (length p + 1) + Z.of_nat 8) cap); [|lia]. rewrite E, !app_length, le_len. cbn [length].
    destruct (Z.leb_spec (Z.of_nat (length p + 1 + 8) + Z.of_nat (length (payload r))) cap); [|lia]. rewrite <- !app_assoc. reflexivity.
  - destruct (Z.leb_spec (Z.of_nat (length p) + Z.of_nat 1) cap); auto. rewrite E, app_length, le_len. cbn [length].
    destruct (Z.leb_spec (Z.of_nat (length p + 1) + Z.of_nat 8) cap); auto. rewrite E, !app_length, le_len. cbn [length].
    destruct (Z.leb_spec (Z.of_nat (length p + 1 + 8) + Z.of_nat (length (payload r))) cap); [lia|auto].
Qed.

(** A result written into a pipe is read back unchanged, if its text is not longer than 100 bytes, and what was in the pipe after it stays there. *)
Theorem C51_frame : forall cap rsize w d r p q, whole w -> whole d -> fits r -> (success r = true -> rsize = Z.of_nat (length (payload r))) -> (success r = false -> Z.of_nat (length (payload r)) <= 100) ->
  pipeWrite cap w r p = Some q -> exists m, q = p ++ m /\ Z.of_nat (length m) = 9 + Z.of_nat (length (payload r)) /\
  forall later, pipeRead rsize d (m ++ later) = Got (success r) (map Some (payload r)) (1 + Z.of_nat (length (payload r))) later.
Proof.
  intros cap rsize w d r p q Hw Hd Hf Hs He Hq. rewrite write_whole in Hq by auto. destruct (Z.leb_spec (Z.of_nat (length p) + 9 + Z.of_nat (length (payload r))) cap); inversion Hq; subst q.
  eexists; split; [reflexivity|]. split; [change (Z.of_nat (S (length (le 8 (Z.of_nat (length (payload r))) ++ payload r))) = 9 + Z.of_nat (length (payload r))); rewrite app_length, le_len; lia|]. intros later. unfold pipeRead. cbn [app].
  assert (E1 : forall z rest, sysRead (d 0%nat) 1 (z :: rest) = Some ([z], rest)) by (intros; apply (read_full (d 0%nat) 1 [z]); auto).
  rewrite E1, <- app_assoc, (read_full (d 1%nat)) by (auto; rewrite le_len; auto).
  replace (store (le 8 (Z.of_nat (length (payload r)))) (repeat 0 8)) with (le 8 (Z.of_nat (length (payload r)))) by (symmetry; apply store_all; rewrite le_len, repeat_length; auto).
  rewrite unle_le by (unfold fits in Hf; cbn; lia). unfold store at 1. cbn [length skipn app unle]. destruct (success r).
  - cbn [Z.add Z.mul Z.eqb Pos.eqb]. change (1 + 256 * 0 =? 1) with true. cbv iota. rewrite read_full by (auto; apply Hs; auto).
    rewrite store_all by (rewrite map_length, repeat_length, (Hs eq_refl), Nat2Z.id; auto). reflexivity.
  - change (0 + 256 * 0 =? 1) with false. change (0 + 256 * 0 =? 0) with true. cbv iota. rewrite read_full by auto. specialize (He eq_refl). destruct (Z.ltb_spec 100 (Z.of_nat (length (payload r)))); [lia|].
    rewrite Nat2Z.id. unfold store. rewrite <- (map_length Some (payload r)) at 1. rewrite firstn_app, firstn_all, Nat.sub_diag. cbn. rewrite app_nil_r. reflexivity.
Qed.
Definition fullIo : nat -> io := fun _ => Full.
Example fullIo_whole : whole fullIo. Proof. intros n m. reflexivity. Qed.
Example C51_frame_ex : pipeWrite 65536 fullIo {| success := false; payload := [98; 97; 100] |} [7] = Some [7; 0; 3; 0; 0; 0; 0; 0; 0; 0; 98; 97; 100] /\
  pipeRead 4 fullIo [0; 3; 0; 0; 0; 0; 0; 0; 0; 98; 97; 100; 55; 55] = Got false [Some 98; Some 97; Some 100] 4 [55; 55].
Proof. split; vm_compute; reflexivity. Qed.

(** What a call gives the caller for each way the function can end: the specification, without the pipe. *)
Definition expected (cap : Z) (f : child) : outcome :=
  match f with
  | Returns bytes => if 9 + Z.of_nat (length bytes) <=? cap then Returned (map Some bytes) else Hangs
  | Throws text => if negb (9 + Z.of_nat (length text) <=? cap) then Hangs else if Z.of_nat (length text) <=? 100 then Raised (Thrown (map Some text)) else Undefined
  | Leaves (Some status) => if wifexited status then Hangs else Raised (Ended status)
  | Leaves None => Hangs
  end.

Lemma read_long : forall rsize d n rest, whole d -> 100 < n < 2 ^ 64 -> rest <> [] -> pipeRead rsize d (0 :: le 8 n ++ rest) = Undef.
Proof.
  intros rsize d n rest Hd Hn Hr. unfold pipeRead. assert (E1 : forall z rest, sysRead (d 0%nat) 1 (z :: rest) = Some ([z], rest)) by (intros; apply (read_full (d 0%nat) 1 [z]); auto).
  rewrite E1, (read_full (d 1%nat)) by (auto; rewrite le_len; auto).
  replace (store (le 8 n) (repeat 0 8)) with (le 8 n) by (symmetry; apply store_all; rewrite le_len, repeat_length; auto).
  rewrite unle_le by (cbn; lia). unfold store at 1. cbn [length skipn app unle]. change (0 + 256 * 0 =? 1) with false. change (0 + 256 * 0 =? 0) with true. cbv iota.
  assert (Hx : exists g, sysRead (d 2%nat) n rest = Some g).
  { unfold sysRead. replace (n =? 0) with false by (symmetry; apply Z.eqb_neq; lia). destruct rest; [congruence|]. destruct (d 2%nat); eauto. }
  destruct Hx as ([x p3] & ->). destruct (Z.ltb_spec 100 n); [auto|lia].
Qed.

(** Every way the function can end. *)
Theorem C51_call : forall cap rsize w d f, whole w -> whole d ->
  match f with Returns bytes => rsize = Z.of_nat (length bytes) /\ rsize < 2 ^ 64 | Throws text => Z.of_nat (length text) < 2 ^ 64 | Leaves _ => True end ->
  safeCall true true cap rsize w d f = expected cap f.
Proof.
  intros cap rsize w d f Hw Hd Hf. unfold safeCall, childRun. cbn [negb]. destruct f as [bytes|text|[status|]]; cbn [expected].
  - destruct Hf as [Hs Hl]. destruct (pipeWrite cap w {| success := true; payload := bytes |} []) as [q|] eqn:E.
    + assert (E' := E). rewrite write_whole in E' by auto. cbn [payload length] in E'. replace (Z.of_nat 0 + 9) with 9 in E' by lia. destruct (9 + Z.of_nat (length bytes) <=? cap); [|discriminate].
      apply (C51_frame cap rsize w d) in E; auto; [|unfold fits; cbn; lia|cbn; discriminate]. destruct E as (m & -> & _ & Hr). cbn [app].
      specialize (Hr []). rewrite app_nil_r in Hr. change (wifexited 0) with true. cbv iota. rewrite Hr. reflexivity.
    + rewrite write_whole in E by auto. cbn [payload length] in E. replace (Z.of_nat 0 + 9) with 9 in E by lia. destruct (9 + Z.of_nat (length bytes) <=? cap); [discriminate|auto].
  - destruct (pipeWrite cap w {| success := false; payload := text |} []) as [q|] eqn:E.
    + assert (E' := E). rewrite write_whole in E' by auto. cbn [payload length] in E'. replace (Z.of_nat 0 + 9) with 9 in E' by lia. destruct (9 + Z.of_nat (length text) <=? cap); [|discriminate]. cbn [negb].
      change (wifexited 65280) with true. cbv iota. destruct (Z.leb_spec (Z.of_nat (length text)) 100).
      * apply (C51_frame cap rsize w d) in E; auto; [|cbn; discriminate]. destruct E as (m & -> & _ & Hr). cbn [app]. specialize (Hr []). rewrite app_nil_r in Hr. rewrite Hr. reflexivity.
      * inversion E' as [E2]. cbn [app success payload]. rewrite read_long; [auto|auto|lia|]. intros ->. cbn in *. lia.
    + rewrite write_whole in E by auto. cbn [payload length] in E. replace (Z.of_nat 0 + 9) with 9 in E by lia. destruct (9 + Z.of_nat (length text) <=? cap); [discriminate|auto].
  - destruct (wifexited status); auto. unfold pipeRead. rewrite read_empty; [auto|lia|]. intros E. assert (H := Hd 0%nat 1). rewrite E in H. discriminate.
  - auto.
Qed.
Example C51_call_ex : safeCall true true 65536 4 fullIo fullIo (Returns [5; 0; 0; 0]) = Returned [Some 5; Some 0; Some 0; Some 0] /\
  safeCall true true 65536 4 fullIo fullIo (Throws [98; 97; 100]) = Raised (Thrown [Some 98; Some 97; Some 100]) /\ safeCall true true 65536 4 fullIo fullIo (Leaves (Some 11)) = Raised (Ended 11).
Proof. repeat split; vm_compute; reflexivity. Qed.

(** A value that fits the pipe arrives. *)
Theorem C51_value : forall cap w d bytes, whole w -> whole d -> 9 + Z.of_nat (length bytes) <= cap -> cap < 2 ^ 64 ->
  safeCall true true cap (Z.of_nat (length bytes)) w d (Returns bytes) = Returned (map Some bytes).
Proof. intros. rewrite C51_call by (auto; lia). unfold expected. destruct (Z.leb_spec (9 + Z.of_nat (length bytes)) cap); [auto|lia]. Qed.
Example C51_value_ex : 9 + Z.of_nat (length [5; 0; 0; 0]) <= 65536 < 2 ^ 64. Proof. cbn. lia. Qed.

(** An error text of up to 100 bytes arrives. *)
Theorem C51_error : forall cap rsize w d text, whole w -> whole d -> 9 + Z.of_nat (length text) <= cap -> Z.of_nat (length text) <= 100 ->
  safeCall true true cap rsize w d (Throws text) = Raised (Thrown (map Some text)).
Proof. intros. rewrite C51_call by (auto; lia). unfold expected. destruct (Z.leb_spec (9 + Z.of_nat (length text)) cap); [|lia]. cbn. destruct (Z.leb_spec (Z.of_nat (length text)) 100); [auto|lia]. Qed.
Example C51_error_ex : 9 + Z.of_nat (length (repeat 120 100)) <= 65536 /\ Z.of_nat (length (repeat 120 100)) <= 100. Proof. rewrite repeat_length. lia. Qed.

(** Every longer one is undefined behaviour. *)
Theorem C51_long_error_refuted : forall cap rsize w d text, whole w -> whole d -> 9 + Z.of_nat (length text) <= cap -> cap < 2 ^ 64 -> 100 < Z.of_nat (length text) ->
  safeCall true true cap rsize w d (Throws text) = Undefined.
Proof. intros. rewrite C51_call by (auto; lia). unfold expected. destruct (Z.leb_spec (9 + Z.of_nat (length text)) cap); [|lia]. cbn. destruct (Z.leb_spec (Z.of_nat (length text)) 100); [lia|auto]. Qed.
Example C51_long_error_ex : safeCall true true 65536 4 fullIo fullIo (Throws (repeat 120 101)) = Undefined.
Proof. vm_compute. reflexivity. Qed.

(** A value or text that does not fit the pipe hangs both processes: the parent reads only after the child has ended. *)
Theorem C51_full_pipe_refuted : forall cap rsize w d f, whole w -> match f with Returns x | Throws x => cap < 9 + Z.of_nat (length x) | Leaves _ => False end ->
  safeCall true true cap rsize w d f = Hangs.
Proof.
  intros cap rsize w d f Hw Hf. unfold safeCall, childRun. cbn [negb]. destruct f as [x|x|?]; [| |tauto]; rewrite write_whole by auto; cbn [payload length];
    (destruct (Z.leb_spec (Z.of_nat 0 + 9 + Z.of_nat (length x)) cap); [lia|auto]).
Qed.
Example C51_full_pipe_ex : safeCall true true 16 12 fullIo fullIo (Returns (repeat 1 12)) = Hangs.
Proof. vm_compute. reflexivity. Qed.

(** A function that calls exit hangs the parent: it waits for bytes at a pipe whose write end it holds itself. *)
Theorem C51_exit_refuted : forall cap rsize w d status, whole d -> wifexited status = true -> safeCall true true cap rsize w d (Leaves (Some status)) = Hangs.
Proof.
  intros cap rsize w d status Hd Hs. unfold safeCall, childRun. cbn [negb]. rewrite Hs. unfold pipeRead. rewrite read_empty; [auto|lia|]. intros E. assert (H := Hd 0%nat 1). rewrite E in H. discriminate.
Qed.
Example C51_exit_ex : wifexited 0 = true /\ wifexited 256 = true /\ wifexited 11 = false /\ wifexited 134 = false.
Proof. repeat split. Qed.

(** A killed child is reported. *)
Theorem C51_killed : forall cap rsize w d status, wifexited status = false -> safeCall true true cap rsize w d (Leaves (Some status)) = Raised (Ended status).
Proof. intros cap rsize w d status Hs. unfold safeCall, childRun. cbn [negb]. rewrite Hs. auto. Qed.
Example C51_killed_ex : safeCall true true 65536 4 fullIo fullIo (Leaves (Some 134)) = Raised (Ended 134). Proof. reflexivity. Qed.

(** The two said of the ways a process ends: by exit with any code; by any signal, with or without a core file. *)
Lemma land_low : forall a b, 0 <= b < 128 -> Z.land (a * 128 + b) 127 = b.
Proof. intros a b Hb. change 127 with (Z.ones 7). rewrite Z.land_ones by lia. change (2 ^ 7) with 128. rewrite Z.add_comm, Z_mod_plus_full. apply Z.mod_small. auto. Qed.
Theorem C51_ways : forall cap rsize w d, whole d ->
  (forall code, 0 <= code < 256 -> safeCall true true cap rsize w d (Leaves (Some (code * 256))) = Hangs) /\
  (forall signal core, 1 <= signal <= 126 -> let status := signal + (if core : bool then 128 else 0) in
     safeCall true true cap rsize w d (Leaves (Some status)) = Raised (Ended status)).
Proof.
  intros cap rsize w d Hd. split.
  - intros code Hc. apply C51_exit_refuted; auto. unfold wifexited. replace (code * 256) with (code * 2 * 128 + 0) by lia. rewrite land_low by lia. auto.
  - intros signal core Hs. cbv zeta. apply C51_killed. unfold wifexited. apply Z.eqb_neq. destruct core.
    + replace (signal + 128) with (1 * 128 + signal) by lia. rewrite land_low by lia. lia.
    + replace (signal + 0) with (0 * 128 + signal) by lia. rewrite land_low by lia. lia.
Qed.
Example C51_ways_ex : safeCall true true 65536 4 fullIo fullIo (Leaves (Some (6 + 128))) = Raised (Ended 134) /\ safeCall true true 65536 4 fullIo fullIo (Leaves (Some (3 * 256))) = Hangs.
Proof.
  assert (whole fullIo) as Hw by (unfold whole; auto). destruct (C51_ways 65536 4 fullIo fullIo Hw) as [H1 H2].
  split; [exact (H2 6 true ltac:(lia))|exact (H1 3 ltac:(lia))].
Qed.

(** A read that brings less than asked for is not noticed: bytes of the value stay uninitialised, or those of the size are taken for the value. *)
Theorem C51_short_read_refuted :
  (forall cap w d bytes k, whole w -> (forall m, moves (d 0%nat) m = m) -> (forall m, moves (d 1%nat) m = m) -> d 2%nat = Part k -> 1 <= k < Z.of_nat (length bytes) ->
    9 + Z.of_nat (length bytes) <= cap -> cap < 2 ^ 64 ->
    safeCall true true cap (Z.of_nat (length bytes)) w d (Returns bytes) = Returned (map Some (firstn (Z.to_nat k) bytes) ++ repeat None (length bytes - Z.to_nat k))) /\
  safeCall true true 65536 4 fullIo (fun n => if Nat.eqb n 1 then Part 7 else Full) (Returns [5; 6; 7; 8]) = Returned [Some 0; Some 5; Some 6; Some 7].
Proof.
  split; [|vm_compute; reflexivity]. intros cap w d bytes k Hw H0 H1 H2 Hk Hc Hm. unfold safeCall, childRun. cbn [negb]. rewrite write_whole by auto. cbn [payload length success app].
  destruct (Z.leb_spec (Z.of_nat 0 + 9 + Z.of_nat (length bytes)) cap); [|lia]. change (wifexited 0) with true. cbv iota. unfold pipeRead.
  assert (E1 : forall z rest, sysRead (d 0%nat) 1 (z :: rest) = Some ([z], rest)) by (intros; apply (read_full (d 0%nat) 1 [z]); auto).
  rewrite E1, (read_full (d 1%nat)) by (auto; rewrite le_len; auto). unfold store at 1. cbn [length skipn app unle]. change (1 + 256 * 0 =? 1) with true. cbv iota.
  rewrite H2. unfold sysRead. replace (Z.of_nat (length bytes) =? 0) with false by (symmetry; apply Z.eqb_neq; lia). destruct bytes as [|b bytes]; [cbn in Hk; lia|].
  remember (b :: bytes) as l. cbn [moves]. rewrite Z.min_id, Z.max_r, Z.min_r by lia. unfold store. rewrite map_length, firstn_length, Nat.min_l by lia. f_equal. f_equal.
  rewrite Nat2Z.id. clear -Hk. remember (Z.to_nat k) as q. assert (q <= length l)%nat by lia. clear -H. revert q H. induction (length l); intros q H; destruct q; cbn; auto; try lia. apply IHn. lia.
Qed.
Example C51_short_read_ex : safeCall true true 65536 4 fullIo (fun n => if Nat.eqb n 2 then Part 3 else Full) (Returns [5; 6; 7; 8]) = Returned [Some 5; Some 6; Some 7; None].
Proof. vm_compute. reflexivity. Qed.

Print Assumptions C51_frame.
Print Assumptions C51_call.
Print Assumptions C51_value.
Print Assumptions C51_error.
Print Assumptions C51_long_error_refuted.
Print Assumptions C51_full_pipe_refuted.
Print Assumptions C51_exit_refuted.
Print Assumptions C51_killed.
Print Assumptions C51_ways.
Print Assumptions C51_short_read_refuted.
