(** Property contexts (C39). *)
From Coq Require Import String List ZArith Lia Bool.
From Verif Require Import Base ListModel ListSpec ContextModel ContextSpec ContextProof.
Import ListNotations.
Local Open Scope list_scope.
Local Open Scope string_scope.

(** A small test: two nested scopes, tags with repeated values, an expectation that fails. *)
Definition aFailure : failure := {| f_file := "t.cpp"; f_line := 3; f_cond := "x < y"; f_str := "x < y" |}.
Definition inner : list op := [OTag "t.cpp" 5 "sign" "neg"; OScope []; OTag "t.cpp" 5 "sign" "neg"; OExpect false aFailure " [m]"].
Definition outer : list op :=
  [OTag "t.cpp" 1 "sign" "pos"; OExpect true aFailure "dropped"; OTag "t.cpp" 2 "size" "big"; OScope inner;
   OTag "t.cpp" 1 "sign" "pos"; OTag "t.cpp" 1 "sign" "neg"; OExpect false aFailure " [n]"; OTag "t.cpp" 1 "size" "big"].
Definition nowhere : gst := {| heap := []; cur := None |}.

(** Leaving a scope, at any depth and whatever happened inside, puts the previous context back and leaves every
    context that existed before as it was; the scope's own context has been changed by its own operations only
    (those of nested scopes go to the nested contexts). *)
Theorem C39_scope_restores : forall body g, exists c inside,
  exec (OScope body) g = Ok {| heap := heap g ++ (c, cur g) :: inside; cur := cur g |} /\
  c = apply_ops body newctx /\ scope_context body g c.
Proof.
  intros. destruct (exec_scope_ok body g) as [ext E]. exists (apply_ops body newctx), ext. split; auto. split; auto.
  eexists. split; [exact E|]. cbn [heap]. rewrite nth_error_app2, Nat.sub_diag by auto. auto.
Qed.

Example C39_scope_restores_ex : match exec (OScope outer) {| heap := [(newctx, None)]; cur := Some 0%nat |} with
  | Ok g => cur g = Some 0%nat /\ nth_error (heap g) 0 = Some (newctx, None) /\ length (heap g) = 4%nat
            /\ match nth_error (heap g) 2 with Some (c, o) => o = Some 1%nat /\ length (failures c) = 1%nat | None => False end
  | _ => False end.
Proof. vm_compute. repeat split. Qed.

(** A single operation acts on the innermost context and on no other. *)
Theorem C39_record_innermost : forall o g id c old, cur g = Some id -> nth_error (heap g) id = Some (c, old) ->
  exists g', exec o g = Ok g' /\ cur g' = Some id /\
    nth_error (heap g') id = Some (apply_op o c, old) /\
    forall j, j <> id -> (j < length (heap g))%nat -> nth_error (heap g') j = nth_error (heap g) j.
Proof.
  intros o g id c old Hc Hn. destruct (all_well o g id c old Hc Hn) as [ext E]. rewrite E.
  pose proof (nth_error_lt _ _ _ _ Hn). eexists. split; [reflexivity|]. split; auto. cbn [heap]. split.
  - rewrite nth_error_app1 by (rewrite heap_set_length; auto). eapply heap_set_nth; eauto.
  - intros j Hj Hl. rewrite nth_error_app1 by (rewrite heap_set_length; auto).
    revert Hj. clear. generalize (heap g) id j. clear. induction l as [|[x y] l IH]; intros [|i] [|j] H; simpl; auto; try congruence.
Qed.

Example C39_record_innermost_ex : match exec (OTag "f" 1 "k" "v") {| heap := [(newctx, None); (newctx, Some 0%nat)]; cur := Some 1%nat |} with
  | Ok g => match nth_error (heap g) 0, nth_error (heap g) 1 with
            | Some (a, _), Some (b, _) => (count_of a "k" "v", count_of b "k" "v") = (0, 1)%nat | _, _ => False end
  | _ => False end.
Proof. reflexivity. Qed.

(** Without a context, recording throws and has no effect. *)
Theorem C39_no_context_throws : forall o g, cur g = None ->
  exec o g = Throw ERuntime \/ exists body, o = OScope body.
Proof.
  intros [f l k v|ok f m|b] g H; [left|left|right; eauto]; simpl; unfold on_context; rewrite H; auto.
Qed.

Example C39_no_context_throws_ex : exec (OTag "f" 1 "k" "v") nowhere = Throw ERuntime /\ exec (OExpect true aFailure "") nowhere = Throw ERuntime.
Proof. split; reflexivity. Qed.

(** What a scope has recorded at its end: the count of each pair is the number of times it was tagged directly in the
    scope, and the failures are the expectations that failed directly in it, in order and with their messages. *)
Theorem C39_counts_exact : forall body g c k v, scope_context body g c -> count_of c k v = times_tagged k v body.
Proof. intros body g c k v H. apply scope_context_eq in H. subst. rewrite count_ops. auto. Qed.

Example C39_counts_exact_ex : count_of (apply_ops outer newctx) "sign" "pos" = 2%nat /\ count_of (apply_ops outer newctx) "sign" "neg" = 1%nat
  /\ count_of (apply_ops inner newctx) "sign" "neg" = 2%nat.
Proof. vm_compute. auto. Qed.

Theorem C39_failures_exact : forall body g c, scope_context body g c -> failures c = failed_expectations body.
Proof. intros body g c H. apply scope_context_eq in H. subst. rewrite failures_ops. auto. Qed.

Example C39_failures_exact_ex : map f_str (failures (apply_ops outer newctx)) = ["x < y [n]"].
Proof. reflexivity. Qed.

(** The summary printed at the end: a key is listed exactly when it was tagged; its total is the number of times the key was tagged; the
    values listed are exactly those recorded with their exact counts, in ascending order without repetition. *)
Theorem C39_summary : forall body g c k, scope_context body g c ->
  match summary_of c k with
  | None => times_key k body = 0%nat
  | Some (total, values) =>
      total = times_key k body /\ (0 < total)%nat /\
      ascending String.ltb (map fst values) /\
      (forall v n, In (v, n) values <-> n = times_tagged k v body /\ (0 < n)%nat)
  end.
Proof.
  intros body g c k H. apply scope_context_eq in H. subst c. rewrite summary_of_eq.
  pose proof (total_ops k body newctx) as Ht. pose proof (fun v => count_ops k v body newctx) as Hc.
  assert (Hw : wf_tags (tags (apply_ops body newctx))) by (apply wf_ops; split; simpl; auto).
  unfold total_of in Ht. unfold count_of in Hc. simpl in Ht, Hc.
  destruct (sfind k (tags (apply_ops body newctx))) as [m|] eqn:E; [|auto].
  destruct Hw as [_ Hw]. rewrite Forall_forall in Hw. apply sfind_in in E. apply Hw in E. destruct E as [N1 [N2 N3]]. simpl in N1, N2, N3.
  split; auto. split.
  - destruct m as [|x m]; [congruence|]. inversion N3; subst. rewrite sum_cons. lia.
  - split.
    + rewrite map_map. simpl. auto.
    + intros v n. rewrite sfind_map by auto. specialize (Hc v). split.
      * intros [t [E1 E2]]. rewrite E1 in Hc. apply sfind_in in E1. rewrite Forall_forall in N3. apply N3 in E1. simpl in E1. lia.
      * intros [E1 E2]. destruct (sfind v m) as [t|]; [|lia]. exists t. split; auto. lia.
Qed.

Example C39_summary_ex : summary_of (apply_ops outer newctx) "sign" = Some (3%nat, [("neg", 1%nat); ("pos", 2%nat)])
  /\ printSummary (apply_ops outer newctx) = [("sign", 3%nat, [("neg", 1%nat); ("pos", 2%nat)]); ("size", 2%nat, [("big", 2%nat)])].
Proof. vm_compute. auto. Qed.

Print Assumptions C39_scope_restores.
Print Assumptions C39_record_innermost.
Print Assumptions C39_no_context_throws.
Print Assumptions C39_counts_exact.
Print Assumptions C39_failures_exact.
Print Assumptions C39_summary.
