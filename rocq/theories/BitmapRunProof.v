(** Executing a list of labels, for concrete executions. *)
From Coq Require Import List ZArith Lia Bool Arith.
From Verif Require Import Base TupleModel BitmapModel BitmapSpec BitmapProof.
Import ListNotations.
Local Open Scope Z_scope.

Definition call_dec (a b : call) : {a = b} + {a <> b}.
Proof. decide equality. apply Z.eq_dec. Defined.
Definition label_dec (a b : label) : {a = b} + {a <> b}.
Proof. decide equality; try apply Nat.eq_dec; try apply Z.eq_dec; try apply bool_dec; try apply call_dec. decide equality. apply Z.eq_dec. Defined.
Definition allowed (polite : bool) (k : call) (l : list Z) : bool :=
  match k with Unacquire n => negb polite || existsb (Z.eqb n) l | _ => true end.
Definition who (l : label) : nat := match l with LSpawn => 0 | LCall t _ | LTry t _ _ | LStep t | LRet t _ | LGive t _ _ => t end.
Definition fire (size : nat) (polite : bool) (c : config) (l : label) : option config :=
  match l with
  | LSpawn => Some {| slots := slots c; threads := threads c ++ [newborn] |}
  | LCall t k =>
      match nth_error (threads c) t with
      | Some {| at_ := Idle; owns := ow |} =>
          if allowed polite k ow
          then Some {| slots := slots c; threads := set_nth t {| at_ := entry size k; owns := gives_back k ow |} (threads c) |}
          else None
      | _ => None
      end
  | LGive _ _ _ => None
  | _ => match nth_error (threads c) (who l) with
         | Some th => match advance size (at_ th) (slots c) with
                      | Some o => if label_dec (label_of (who l) (at_ th) o) l
                                  then Some {| slots := left_by o; threads := set_nth (who l) (settle th o) (threads c) |}
                                  else None
                      | None => None
                      end
         | None => None
         end
  end.
Lemma fire_step : forall size polite c l d, fire size polite c l = Some d -> step size polite c l d.
Proof.
  intros size polite c l d H.
  assert (G : forall t, (match nth_error (threads c) t with
         | Some th => match advance size (at_ th) (slots c) with
                      | Some o => if label_dec (label_of t (at_ th) o) l
                                  then Some {| slots := left_by o; threads := set_nth t (settle th o) (threads c) |}
                                  else None
                      | None => None
                      end
         | None => None
         end) = Some d -> step size polite c l d).
  { intros t G. destruct (nth_error (threads c) t) as [th|] eqn:E; [|discriminate]. destruct (advance size (at_ th) (slots c)) as [o|] eqn:A; [|discriminate].
    destruct (label_dec (label_of t (at_ th) o) l) as [<-|]; [|discriminate]. inversion G. econstructor; eauto. }
  destruct l as [|t k|t n ok|t|t v|t u n]; simpl in H; try discriminate; try (apply (G t); exact H).
  - inversion H. constructor.
  - destruct (nth_error (threads c) t) as [[p ow]|] eqn:E; [|discriminate]. destruct p; try discriminate. destruct (allowed polite k ow) eqn:A; [|discriminate].
    inversion H. apply (st_call size polite c t {| at_ := Idle; owns := ow |} k E); auto. intros n Hp ->. subst polite. simpl in *.
    apply existsb_exists in A. destruct A as [x [A1 A2]]. apply Z.eqb_eq in A2. subst. auto.
Qed.
Fixpoint runs (size : nat) (polite : bool) (c : config) (ls : list label) : option config :=
  match ls with [] => Some c | l :: r => match fire size polite c l with Some d => runs size polite d r | None => None end end.
Lemma runs_exec : forall size polite ls c0 ls0 c d, exec size polite c0 ls0 c -> runs size polite c ls = Some d -> exec size polite c0 (ls0 ++ ls) d.
Proof.
  intros size polite. induction ls as [|l ls IH]; intros c0 ls0 c d H R; simpl in R.
  - inversion R; subst. rewrite app_nil_r. auto.
  - destruct (fire size polite c l) as [e|] eqn:E; [|discriminate]. replace (ls0 ++ l :: ls) with ((ls0 ++ [l]) ++ ls) by (rewrite <- app_assoc; auto).
    eapply IH; eauto. econstructor; eauto. apply fire_step. auto.
Qed.
Lemma runs_start : forall size polite ls d, runs size polite (start size) ls = Some d -> exec size polite (start size) ls d.
Proof. intros. apply (runs_exec size polite ls (start size) [] (start size)); auto. constructor. Qed.
