(** What the value of PROPTEST_SEED is, independent of how it is read. *)
From Coq Require Import List ZArith.
Import ListNotations.
Local Open Scope Z_scope.

Definition blank (c : Z) : Prop := In c [9; 10; 11; 12; 13; 32].
Definition decimal (c : Z) : Prop := In c [48; 49; 50; 51; 52; 53; 54; 55; 56; 57].

(** The number written by decimal digits. *)
Inductive number : list Z -> Z -> Prop :=
| number_nil : number [] 0
| number_snoc l n d : number l n -> 0 <= d < 10 -> number (l ++ [48 + d]) (10 * n + d).

Definition starts (P : Z -> Prop) (t : list Z) : Prop := match t with [] => False | c :: _ => P c end.

(** Blanks, at most one sign, digits up to the first other character, anything. *)
Definition means (t : list Z) (z : Z) : Prop :=
  exists blanks sign digs rest n, t = blanks ++ sign ++ digs ++ rest /\ Forall blank blanks /\ number digs n /\ ~ starts decimal rest /\
    ((sign = [] /\ ~ starts (fun c => blank c \/ c = 43 \/ c = 45) (digs ++ rest) /\ z = n) \/ (sign = [43] /\ z = n) \/ (sign = [45] /\ z = - n)).
