(** Property::matrix (C37). *)
From Coq Require Import String List ZArith Lia Bool.
From Verif Require Import Base TreeModel RandomModel IntegralProof EffModel EffProof ContextModel RunnerModel RunnerSpec RunnerProof RunnerLogProof MatrixSpec MatrixProof.
Import ListNotations.
Local Open Scope list_scope.
Local Open Scope Z_scope.

(** matrix is example on each combination in lexicographic order, and then true -- also after failures. *)
Theorem C37_matrix : forall E V W (P : property E V W) lists fuel s, Forall usable lists -> (length (product lists) <= fuel)%nat ->
  matrix fuel P lists s = do s' <- each P (product lists) s; Ok (true, s').
Proof. exact matrix_each. Qed.

(** The combinations: exactly the tuples taking each component from its list, and their number. *)
Theorem C37_product : forall V (lists : list (list V)), (forall args, In args (product lists) <-> Forall2 (@In V) args lists) /\
  length (product lists) = fold_right Nat.mul 1%nat (map (@length V) lists).
Proof. intros. split; [apply product_in|apply product_length]. Qed.

(** Their order: lexicographic by position. *)
Theorem C37_order : forall V (l : list V) ls i j, (i < length l)%nat -> (j < length (product ls))%nat ->
  nth_error (product (l :: ls)) (i * length (product ls) + j) =
  match nth_error l i, nth_error (product ls) j with Some x, Some t => Some (x :: t) | _, _ => None end.
Proof.
  intros V. induction l as [|x l IH]; intros ls i j Hi Hj; [simpl in Hi; lia|]. change (product ((x :: l) :: ls)) with (map (cons x) (product ls) ++ product (l :: ls)).
  destruct i as [|i].
  - simpl. rewrite nth_error_app1 by (rewrite map_length; auto). rewrite nth_error_map. destruct (nth_error (product ls) j); auto.
  - rewrite nth_error_app2 by (rewrite map_length; simpl; lia). rewrite map_length.
    replace (S i * length (product ls) + j - length (product ls))%nat with (i * length (product ls) + j)%nat by (simpl; lia). apply IH; auto. simpl in Hi. lia.
Qed.

(** For a property without a start-up hook that throws only standard exceptions: the result is true and the property has been called with exactly the
    combinations, in order, once each. *)
Theorem C37_calls : forall E V W (P : property E V W) lists fuel s, Forall usable lists -> (length (product lists) <= fuel)%nat ->
  tame P -> onStartup P = None ->
  exists s', matrix fuel P lists s = Ok (true, s') /\ args_of (lg s') = args_of (lg s) ++ product lists.
Proof.
  intros E V W P lists fuel s Hu Hf [T1 [T2 T3]] Hs. rewrite C37_matrix by auto. generalize (product lists). clear -T1 T3 Hs.
  intros l. revert s. induction l as [|a l IH]; intros s; [exists s; rewrite app_nil_r; auto|]. cbn [each].
  assert (H : exists b s1, example P a s = Ok (b, s1) /\ args_of (lg s1) = args_of (lg s) ++ [a]).
  { unfold example. rewrite Hs. cbn [runHook]. destruct (callFunc P a (with_cx newctx s)) as [u s2] eqn:E2.
    assert (T : u <> UThrow ENonStd).
    { unfold callFunc in E2. specialize (T1 a (wd (with_cx newctx s))). destruct (func P a (wd (with_cx newctx s))) as [[ops u'] w']. inversion E2; subst. auto. }
    apply callFunc_log in E2. destruct E2 as [L2 _]. cbn [lg with_cx] in L2.
    destruct u as [b|e].
    - destruct (runHook (onCleanup P) ECleanup s2) as [r s3] eqn:E3.
      assert (L3 : args_of (lg s3) = args_of (lg s) ++ [a]).
      { apply runHook_log in E3. destruct E3 as [-> _]. rewrite args_of_app, L2, args_of_app. destruct (has (onCleanup P)); rewrite app_nil_r; auto. }
      destruct r as [e|]; [|eexists _, _; split; [reflexivity|exact L3]]. assert (He : e <> ENonStd).
      { intros ->. unfold runHook in E3. destruct (onCleanup P) as [h|] eqn:Eh; [|discriminate]. specialize (T3 h (wd s2) eq_refl).
        destruct (h (wd s2)) as [[o r] w2]. inversion E3; subst. apply T3. auto. }
      destruct e; try congruence; (eexists _, _; split; [reflexivity|exact L3]).
    - assert (L3 : args_of (lg s2) = args_of (lg s) ++ [a]) by (rewrite L2, args_of_app; auto).
      destruct e; try congruence; (eexists _, _; split; [reflexivity|exact L3]). }
  destruct H as [b [s1 [H L]]]. rewrite H. cbn [bind]. destruct (IH s1) as [s' [H1 H2]]. exists s'. rewrite H1. split; auto. rewrite H2, L, <- app_assoc. auto.
Qed.

(** An empty list among them is read out of bounds. *)
Theorem C37_empty : forall E V W (P : property E V W) lists fuel s, In [] lists -> matrix (S fuel) P lists s = UB.
Proof. intros. unfold matrix. simpl. rewrite pickEach_empty; auto. Qed.

(** A list of more than 2^31 elements is not walked: only its first element is used. *)
Theorem C37_long_list : forall E V W (P : property E V W) x l fuel s, Z.of_nat (length (x :: l)) = 2 ^ 31 + 1 ->
  matrix (S fuel) P [x :: l] s = do s' <- each P [[x]] s; Ok (true, s').
Proof.
  intros E V W P x l fuel s H. unfold matrix. cbn [map matrixLoop pickEach]. unfold idx. cbn [Z.ltb Z.compare Z.to_nat nth_error bind].
  rewrite progress_cons. replace (progress (V := V) [] []) with (false, @nil Z) by auto. rewrite H.
  replace (0 <? wrapS 32 (wrapU 64 (2 ^ 31 + 1 - 1))) with false by reflexivity. cbn [each]. destruct (example P [x] s) as [[b s1]| | |]; auto.
Qed.

(** * Examples *)
Definition anyInt : xgen replay Z := gret (inl (elift (Node 0 []))).
Definition sumSmall : property replay Z nat :=
  {| func := fun a n => ([], match a with [x; y] => if x =? 7 then UThrow EDiscard else URet (x + y <? 20) | _ => UThrow EOther end, S n);
     gens := [anyInt; anyInt]; onStartup := None; onCleanup := None; numRuns := 5; maxDurationMs := 0; seed := 1 |}.
Definition s0 : rs replay Z nat := {| rnd := [] : rst replay; cx := newctx; wd := 0%nat; lg := [] |}.
Example C37_ex : Forall (@usable Z) [[1; 7; 30]; [2; 3]] /\ tame sumSmall /\
  match matrix 6 sumSmall [[1; 7; 30]; [2; 3]] s0 with
  | Ok (b, s) => b = true /\ wd s = 6%nat /\ lg s = [ECall [1; 2] (URet true); ECall [1; 3] (URet true); ECall [7; 2] (UThrow EDiscard); ECall [7; 3] (UThrow EDiscard);
                                    ECall [30; 2] (URet false); ECall [30; 3] (URet false)]
  | _ => False end.
Proof.
  split; [repeat constructor; unfold usable; simpl; lia|]. split; [|vm_compute; auto]. split; [|split; discriminate].
  intros [|x [|y [|z a]]] w; simpl; try discriminate. destruct (x =? 7); discriminate.
Qed.
Example C37_ex2 : matrix 6 sumSmall [[1; 7; 30]; []] s0 = UB.
Proof. vm_compute. reflexivity. Qed.
Example C37_ex3 : nth_error (product [[1; 7; 30]; [2; 3]]) (1 * 2 + 1) = Some [7; 3].
Proof. reflexivity. Qed.
Example C37_ex4 : exists l, Z.of_nat (length (0 :: l)) = 2 ^ 31 + 1.
Proof.
  destruct (Z_of_nat_complete (2 ^ 31)) as [n Hn]; [apply Z.pow_nonneg; lia|]. exists (repeat 1 n). cbn [length]. rewrite repeat_length, Nat2Z.inj_succ, <- Hn. reflexivity.
Qed.

Print Assumptions C37_matrix.
Print Assumptions C37_product.
Print Assumptions C37_order.
Print Assumptions C37_calls.
Print Assumptions C37_empty.
Print Assumptions C37_long_list.
