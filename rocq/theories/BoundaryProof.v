(** Boundary values of integer types: the tables. *)
From Coq Require Import List ZArith Bool Lia ListDec.
From Verif Require Import Base RandomModel IntegralModel BoundarySpec IntegralProof.
Import ListNotations.
Local Open Scope Z_scope.

Lemma near_cases : forall x v, near x v -> x = v - 1 \/ x = v \/ x = v + 1.
Proof. intros x v. unfold near. lia. Qed.
Lemma listed : forall x l, existsb (Z.eqb x) l = true -> In x l.
Proof. intros x l H. apply existsb_exists in H. destruct H as [y [Hy E]]. apply Z.eqb_eq in E. congruence. Qed.
Ltac table R := solve [apply listed; vm_compute; reflexivity | exfalso; vm_compute in R; destruct R; congruence].
Ltac spread R H x := apply near_cases in H; destruct H as [H|[H|H]]; subst x; table R.
Lemma boundary_table : forall ty, ty <> TChar -> NoDup (boundaryValues ty) /\ forall x, In x (boundaryValues ty) <-> boundary ty x.
Proof.
  intros ty Hty. split; [destruct ty; try congruence; vm_compute; repeat (constructor; [intros H; repeat (destruct H as [H|H]; [discriminate|]); contradiction|]); constructor|].
  intros x. split.
  - intros H. split; [apply boundary_range; auto|].
    destruct ty; try congruence; vm_compute in H; repeat (destruct H as [H|H]; [subst x; first
      [ left; lia
      | right; left; unfold near; vm_compute; split; discriminate
      | right; right; left; unfold near; vm_compute; split; discriminate
      | right; right; right; left; unfold near; vm_compute; repeat split; discriminate
      | right; right; right; right; left; exists 8; split; [apply listed; reflexivity|]; split; [reflexivity|]; unfold near; vm_compute; first [left; split; discriminate|right; left; split; discriminate|right; right; split; discriminate]
      | right; right; right; right; left; exists 16; split; [apply listed; reflexivity|]; split; [reflexivity|]; unfold near; vm_compute; first [left; split; discriminate|right; left; split; discriminate|right; right; split; discriminate]
      | right; right; right; right; left; exists 32; split; [apply listed; reflexivity|]; split; [reflexivity|]; unfold near; vm_compute; first [left; split; discriminate|right; left; split; discriminate|right; right; split; discriminate]
      | right; right; right; right; right; split; [reflexivity|apply listed; vm_compute; reflexivity] ]|]); contradiction.
  - intros [R H]. destruct H as [H|[H|[H|[[H1 [H2 H]]|[[u [Hu [Hb H]]]|[H1 H]]]]]].
    + assert (K : x = -2 \/ x = -1 \/ x = 0 \/ x = 1 \/ x = 2) by lia. destruct K as [K|[K|[K|[K|K]]]]; subst x; destruct ty; try congruence; table R.
    + destruct ty; try congruence; spread R H x.
    + destruct ty; try congruence; spread R H x.
    + destruct ty; try discriminate; try (exfalso; vm_compute in H2; congruence); spread R H x.
    + destruct Hu as [<-|[<-|[<-|[]]]]; destruct ty; try congruence; try discriminate Hb; destruct H as [H|[H|H]]; spread R H x.
    + destruct ty; try congruence; try discriminate H1; simpl in H; destruct H as [H|[H|[H|[H|[H|[H|[]]]]]]]; subst x; table R.
Qed.
