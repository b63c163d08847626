(** Sets of values that are drawn with different probabilities. *)
From Coq Require Import List ZArith QArith Lia Lqa Bool Arith Permutation.
From Verif Require Import Base TreeModel RandomModel ListModel ListSpec ListMainProof ContainerModel ContainerSpec ContainerProof.
From Verif Require Import ChanceSpec ChanceProof ChanceLawProof ChanceCombProof EndingSpec EndingProof BugChanceSpec BugChanceProof SetChanceSpec SetChanceProof.
Import ListNotations.
Local Open Scope Q_scope.

Section Sure.
  Variable A : Type.
  Variable lt : A -> A -> bool.
  Hypothesis so : strict_order lt.
  Hypothesis tot : forall a b, lt a b = false -> lt b a = false -> a = b.
  Variable p : plan A.
  Hypothesis sure : prob p anything == 1.

  Lemma fill_next : forall m n acc, (length acc < n)%nat -> 1 - prob (fill_plan A lt (S m) p n acc) anything ==
    mean p (onValue (fun a => 1 - prob (fill_plan A lt m p n (set_insert lt a acc)) anything)).
  Proof.
    intros m n acc H. cbn [fill_plan]. rewrite (proj2 (Nat.ltb_lt _ _) H). rewrite prob_bind. rewrite <- sure at 1. unfold prob at 1.
    rewrite (mean_ext _ p (onValue (fun a => 1 - _)) (fun x => when anything x + -1 * onValue (fun a => prob (fill_plan A lt m p n (set_insert lt a acc)) anything) x)).
    - rewrite mean_plus, mean_scale. ring.
    - intros [a| | |]; cbn; ring.
  Qed.
  Lemma fill_more : forall m n acc, prob (fill_plan A lt m p n acc) anything <= prob (fill_plan A lt (S m) p n acc) anything.
  Proof.
    intros m n. induction m as [|m IH]; intros acc.
    - cbn [fill_plan]. destruct (length acc <? n)%nat; [|apply Qle_refl]. unfold prob at 1. cbn [mean when]. apply prob_range.
    - destruct (Nat.ltb_spec (length acc) n) as [L|L].
      + pose proof (fill_next m n acc L) as E1. pose proof (fill_next (S m) n acc L) as E2.
        assert (B : mean p (onValue (fun a => 1 - prob (fill_plan A lt (S m) p n (set_insert lt a acc)) anything)) <= mean p (onValue (fun a => 1 - prob (fill_plan A lt m p n (set_insert lt a acc)) anything))).
        { apply (mean_le _ _ p _ _ (leaves_true _ p)).
          - intros a _. cbn [onValue]. specialize (IH (set_insert lt a acc)). lra.
          - intros [a| | |] Hx; cbn; try apply Qle_refl. exfalso. apply (Hx a). reflexivity. }
        lra.
      + cbn [fill_plan]. rewrite (proj2 (Nat.ltb_ge _ _) L). apply Qle_refl.
  Qed.
  Lemma sum_mean : forall (B : Type) (q : plan B) M (f : nat -> B -> Q), sum M (fun i => mean q (onValue (f i))) == mean q (onValue (fun a => sum M (fun i => f i a))).
  Proof.
    intros B q M f. induction M as [|M IH]; cbn [sum].
    - rewrite (mean_ext _ _ _ (fun _ => 0)); [symmetry; apply mean_const|]. intros [a| | |]; reflexivity.
    - rewrite IH, <- mean_plus. apply mean_ext. intros [a| | |]; cbn; ring.
  Qed.

  Variable vals : list A.
  Variable eps : Q.
  Hypothesis nd : NoDup vals.
  Hypothesis eps_pos : 0 < eps.
  Hypothesis often : forall v, In v vals -> eps <= prob p (eqv A lt v).
  Variable n : nat.
  Hypothesis enough : (n <= length vals)%nat.

  Lemma fresh : forall acc, (length acc < n)%nat -> eps <= prob p (fun a => negb (mem A lt a acc)).
  Proof.
    intros acc H. assert (X : exists v, In v vals /\ ~ In v acc).
    { destruct (existsb (fun v => negb (mem A lt v acc)) vals) eqn:Ex.
      - apply existsb_exists in Ex. destruct Ex as (v & Hv & Hn). exists v. split; [exact Hv|]. apply negb_true_iff in Hn. apply (mem_out A lt so tot) in Hn. exact Hn.
      - exfalso. assert (I : incl vals acc).
        { intros v Hv. apply (mem_in A lt so tot). destruct (mem A lt v acc) eqn:M; [reflexivity|]. exfalso.
          assert (T : existsb (fun v => negb (mem A lt v acc)) vals = true) by (apply existsb_exists; exists v; split; [exact Hv|rewrite M; reflexivity]). congruence. }
        pose proof (NoDup_incl_length nd I). lia. }
    destruct X as (v & Hv & Hn). apply (Qle_trans _ _ _ (often v Hv)). unfold prob. apply (mean_le _ _ p _ _ (leaves_true _ p)).
    - intros a _. cbn [when]. destruct (eqv A lt v a) eqn:E; [|destruct (negb (mem A lt a acc)); lra]. apply (eqv_true A lt so tot) in E. subst a.
      rewrite (proj2 (mem_out A lt so tot v acc) Hn). cbn. lra.
    - intros [a| | |] Hx; cbn; try apply Qle_refl. exfalso. apply (Hx a). reflexivity.
  Qed.

  Lemma wait_sum : forall M acc, ascending lt acc -> (length acc <= n)%nat ->
    sum M (fun i => 1 - prob (fill_plan A lt i p n acc) anything) <= asQ (n - length acc) / eps.
  Proof.
    assert (I0 : 0 < / eps) by (apply Qinv_lt_0_compat, eps_pos).
    assert (U0 : forall k, 0 <= asQ k / eps) by (intros k; unfold Qdiv; apply Qmult_le_0_compat; [apply asQ_ge0|lra]).
    induction M as [|M IH]; intros acc Ha Hl; [apply U0|]. destruct (Nat.eq_dec (length acc) n) as [D|D].
    - rewrite (sum_ext _ _ (fun _ => 0)); [rewrite sum_const, Qmult_0_r; apply U0|]. intros i _.
      destruct i; cbn [fill_plan]; rewrite (proj2 (Nat.ltb_ge _ _)) by lia; unfold prob; cbn; ring.
    - assert (Sh : forall f, sum (S M) f == f O + sum M (fun i => f (S i))).
      { intros f. change (S M) with (1 + M)%nat. rewrite sum_split. cbn [sum]. rewrite Qplus_0_l. reflexivity. }
      rewrite Sh. assert (Z0 : 1 - prob (fill_plan A lt 0 p n acc) anything == 1).
      { cbn [fill_plan]. rewrite (proj2 (Nat.ltb_lt _ _)) by lia. unfold prob. cbn. ring. }
      rewrite Z0. rewrite (sum_ext M _ (fun i => mean p (onValue (fun a => 1 - prob (fill_plan A lt i p n (set_insert lt a acc)) anything)))) by (intros i _; apply fill_next; lia).
      rewrite sum_mean.
      assert (B : mean p (onValue (fun a => sum M (fun i => 1 - prob (fill_plan A lt i p n (set_insert lt a acc)) anything))) <=
                  mean p (fun x => asQ (n - length acc) / eps * when anything x + - / eps * when (fun a => negb (mem A lt a acc)) x)).
      { apply (mean_le _ _ p _ _ (leaves_true _ p)).
        - intros a _. cbn [onValue when]. unfold anything at 2. destruct (mem A lt a acc) eqn:M0; cbn [negb].
          + apply (mem_in A lt so tot) in M0. rewrite (ins_old A lt so) by assumption. specialize (IH acc Ha Hl). lra.
          + apply (mem_out A lt so tot) in M0. pose proof (ins_new A lt tot a acc M0) as Ln.
            specialize (IH (set_insert lt a acc) (set_insert_asc _ lt a acc so Ha) ltac:(lia)). rewrite Ln in IH.
            assert (E : asQ (n - length acc) == asQ (n - S (length acc)) + 1) by (rewrite <- asQ_S; replace (S (n - S (length acc))) with (n - length acc)%nat by lia; reflexivity).
            rewrite E. unfold Qdiv in *. lra.
        - intros [a| | |] Hx; cbn; try lra. exfalso. apply (Hx a). reflexivity. }
      rewrite mean_plus, !mean_scale in B. fold (prob p anything) (prob p (fun a => negb (mem A lt a acc))) in B. rewrite sure in B.
      pose proof (fresh acc ltac:(lia)) as F.
      assert (G : 1 <= / eps * prob p (fun a => negb (mem A lt a acc))).
      { apply Qle_trans with (/ eps * eps); [|apply Qmult_le_l; assumption]. rewrite (Qmult_comm (/ eps)), Qmult_inv_r; [apply Qle_refl|lra]. }
      lra.
  Qed.
  Lemma wait_bound : forall m, 1 - prob (fill_plan A lt m p n []) anything <= asQ n / eps / asQ (S m).
  Proof.
    intros m. apply Qle_shift_div_l; [apply asQ_pos; lia|]. pose proof (wait_sum (S m) [] I ltac:(cbn; lia)) as H. cbn [length] in H. rewrite Nat.sub_0_r in H.
    apply Qle_trans with (sum (S m) (fun i => 1 - prob (fill_plan A lt i p n []) anything)); [|exact H].
    rewrite Qmult_comm. change (asQ (S m)) with (inject_Z (Z.of_nat (S m))). rewrite <- sum_const. apply sumQ_le. intros i Hi.
    assert (Mo : forall a d, prob (fill_plan A lt a p n []) anything <= prob (fill_plan A lt (d + a) p n []) anything).
    { intros a d. induction d as [|d IH]; [apply Qle_refl|]. apply (Qle_trans _ _ _ IH). apply fill_more. }
    specialize (Mo i (m - i)%nat). replace (m - i + i)%nat with m in Mo by lia. lra.
  Qed.
End Sure.

(** ** One particular value *)
Section Contains.
  Variable A : Type.
  Variable lt : A -> A -> bool.
  Hypothesis so : strict_order lt.
  Hypothesis tot : forall a b, lt a b = false -> lt b a = false -> a = b.
  Variable vals : list A.
  Variable p : plan A.
  Hypothesis nd : NoDup vals.
  Hypothesis ne : vals <> [].
  Hypothesis even : forall f, mean p (onValue f) == total (map f vals) / asQ (length vals).
  Variable v : A.
  Hypothesis v_in : In v vals.
  Local Notation N := (length vals).

  Lemma fill_has : forall m n acc, ascending lt acc -> incl acc vals -> (length acc <= n)%nat -> In v acc -> prob (fill_plan A lt m p n acc) (mem A lt v) == collects N n (length acc) m.
  Proof.
    intros m n acc Ha Hi Hl Hv. rewrite <- (fill_prob A lt so tot vals p nd ne even m n acc Ha Hi). unfold prob. apply (mean_leaves _ _ _ _ _ (fill_leaves A lt m p n acc Hl)).
    - intros l [_ Hc]. cbn [when]. rewrite (proj2 (mem_in A lt so tot v l) (Hc v Hv)). reflexivity.
    - intros [a| | |] Hx; try reflexivity. exfalso. apply (Hx a). reflexivity.
  Qed.
  Lemma fill_contains : forall m n acc, (n <= N)%nat -> ascending lt acc -> incl acc vals -> (length acc <= n)%nat -> ~ In v acc ->
    prob (fill_plan A lt m p n acc) (mem A lt v) == (asQ n - asQ (length acc)) / (asQ N - asQ (length acc)) * collects N n (length acc) m.
  Proof.
    intros m n acc Hn. revert acc. assert (N0 : (0 < N)%nat) by (clear - ne; destruct vals; [contradiction|cbn; lia]). pose proof (asQ_pos _ N0) as Nq. induction m as [|m IH]; intros acc Ha Hi Hl Hv.
    - cbn [fill_plan]. destruct (Nat.ltb_spec (length acc) n) as [L|L].
      + rewrite collect_zero by lia. unfold prob. cbn [mean when]. ring.
      + replace n with (length acc) by lia. unfold prob. cbn [mean when]. rewrite (proj2 (mem_out A lt so tot v acc) Hv). unfold Qdiv. ring.
    - cbn [fill_plan]. destruct (Nat.ltb_spec (length acc) n) as [L|L].
      + rewrite collect_step by lia. rewrite prob_bind, even. set (j := length acc) in *.
        pose proof (asQ_lt j N ltac:(lia)) as Jn.
        set (c := collects N n j m). set (c' := collects N n (S j) m).
        set (x := (asQ n - asQ j) / (asQ N - asQ j) * c). set (z := (asQ n - asQ (S j)) / (asQ N - asQ (S j)) * c').
        assert (Zt : z * (asQ N - asQ j - 1) == (asQ n - asQ j - 1) * c').
        { unfold z. pose proof (asQ_S j) as Sj. destruct (Nat.eq_dec N (S j)) as [D|D].
          - assert (n = S j) by lia. rewrite D. replace n with (S j) by lia. rewrite Sj. ring.
          - pose proof (asQ_lt (S j) N ltac:(lia)). rewrite Sj in *. field. lra. }
        rewrite (total_ext _ _ (fun a => ((x - z) * tells (fun a => mem A lt a acc) a + (c' - z) * tells (fun a => mem A lt a [v]) a) + z * 1)).
        * rewrite !total_plus, !total_scale, total_one, !(total_mem A lt so tot); auto.
          -- fold j. change (asQ (length [v])) with 1.
             assert (T : (x - z) * asQ j + (c' - z) * 1 + z * asQ N == (asQ n - asQ j) * c' + x * asQ j) by lra. rewrite T. unfold x. field. split; lra.
          -- repeat constructor. intros [].
          -- intros y [<-|[]]. exact v_in.
          -- apply (ascending_NoDup _ lt); auto.
        * intros a Hin. unfold tells. destruct (mem A lt a acc) eqn:M.
          -- assert (D : mem A lt a [v] = false).
             { apply (mem_out A lt so tot). intros [X|[]]. subst a. apply (mem_in A lt so tot) in M. contradiction. }
             rewrite D. apply (mem_in A lt so tot) in M. rewrite (ins_old A lt so) by assumption. rewrite IH by assumption. fold j c x. ring.
          -- apply (mem_out A lt so tot) in M. pose proof (ins_new A lt tot a acc M) as Ln. fold j in Ln.
             assert (I2 : incl (set_insert lt a acc) vals) by (intros y Hy; apply set_insert_in in Hy; destruct Hy as [->|Hy]; [exact Hin|apply Hi, Hy]).
             pose proof (set_insert_asc _ lt a acc so Ha) as A2. destruct (mem A lt a [v]) eqn:MV.
             ++ apply (mem_in A lt so tot) in MV. destruct MV as [X|[]]. subst a. rewrite fill_has; auto; try lia.
                ** rewrite Ln. fold c'. ring.
                ** destruct (set_insert_covers _ lt v acc so) as (y0 & Hy & E1 & E2). rewrite <- (tot _ _ E1 E2) in Hy. exact Hy.
             ++ apply (mem_out A lt so tot) in MV. rewrite IH; auto; try lia.
                ** rewrite Ln. fold c'. fold z. ring.
                ** intros Hy. apply set_insert_in in Hy. destruct Hy as [->|Hy]; [apply MV; left; reflexivity|contradiction].
      + replace n with (length acc) by lia. unfold prob. cbn [mean when]. rewrite (proj2 (mem_out A lt so tot v acc) Hv). unfold Qdiv. ring.
  Qed.
  Lemma set_contains : forall m mn mx, (0 <= mn)%Z -> (mn <= mx)%Z ->
    prob (set_plan A lt m p mn mx) (mem A lt v) == average mn mx (fun k => collects N (Z.to_nat k) 0 m * (inject_Z k / asQ N)).
  Proof.
    intros m mn mx H0 H. assert (N0 : (0 < N)%nat) by (clear - ne; destruct vals; [contradiction|cbn; lia]). pose proof (asQ_pos _ N0) as Nq. unfold set_plan, prob. cbn [mean]. rewrite (proj2 (Z.leb_le mn mx) H). apply average_ext. intros z Hz.
    fold (prob (fill_plan A lt m p (Z.to_nat z) []) (mem A lt v)). destruct (le_lt_dec (Z.to_nat z) N) as [L|L].
    - rewrite fill_contains; auto; [|exact I|intros y []|cbn; lia]. cbn [length]. change (asQ 0) with 0. unfold asQ at 1. rewrite Z2Nat.id by lia. field. lra.
    - rewrite (collect_none N (Z.to_nat z) L m 0 ltac:(lia) N0).
      assert (B : 0 <= prob (fill_plan A lt m p (Z.to_nat z) []) (mem A lt v) <= prob (fill_plan A lt m p (Z.to_nat z) []) anything).
      { split; [apply prob_range|]. unfold prob. apply (mean_le _ _ _ _ _ (leaves_true _ _)).
        - intros l _. cbn [when anything]. destruct (mem A lt v l); lra.
        - intros [a| | |] Hx; cbn; try apply Qle_refl. exfalso. apply (Hx a). reflexivity. }
      rewrite (fill_prob A lt so tot vals p nd ne even m (Z.to_nat z) [] I ltac:(intros y [])) in B. cbn [length] in B.
      rewrite (collect_none N (Z.to_nat z) L m 0 ltac:(lia) N0) in B. lra.
  Qed.
End Contains.
