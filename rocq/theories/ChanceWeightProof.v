(** Chances of the coins tossed for weights. *)
From Coq Require Import List ZArith Bool Lia Lqa QArith Qabs SpecFloat.
From Verif Require Import Base TreeModel RandomModel IntegralModel IntegralSpec ContainerModel GenModel GenSpec GenProof IntegralProof BinSearchProof BoolProof PropInt PropGen
  FloatModel FloatSpec FloatProof FloatPrintModel FloatPrintSpec FloatPrintProof RoundProof PercentProof WeightSpec WeightProof PropWeights.
From Verif Require ChanceSpec ChanceLawProof.
Import ListNotations.
Local Open Scope Z_scope.

(** The coin for the weight s/t. *)
Lemma ratio_coin : forall s t, 0 < s <= t -> t < 2 ^ 64 -> exists c, 1 <= c <= 2 ^ 64 /\ Z.abs (c * t - s * 2 ^ 64) <= s * 2 ^ 13 + t /\
  ChanceSpec.coin (ratio s t) (inject_Z c / inject_Z (2 ^ 64)).
Proof.
  intros s t H Ht. destruct (ratio_ok s t H Ht) as (m & e & x & Ew & Vd & _ & L & G & Wi & _).
  destruct (coin_form m e s t Vd L ltac:(lia) Ht Wi) as (c & C1 & C2 & D). exists c. split; [exact C1|]. split; [exact C2|]. rewrite Ew.
  destruct D as [[-> ->]|[Pr ->]].
  - destruct ChanceLawProof.coin_one as (p & P1 & P2 & P3). exists p. split; [exact P1|]. split; [rewrite P2|rewrite P3]; reflexivity.
  - exact (ChanceLawProof.coin_proper _ _ _ Pr).
Qed.
