(** What printed text should look like, written from the escape notation alone. *)
From Coq Require Import List ZArith.
From Verif Require Import UtfSpec.
Import ListNotations.
Local Open Scope Z_scope.

(** The characters 0-9 and a-f. *)
Definition H (d : Z) : Z := nth (Z.to_nat d) [48; 49; 50; 51; 52; 53; 54; 55; 56; 57; 97; 98; 99; 100; 101; 102] 63.

(** A byte as two hexadecimal digits. *)
Definition HH (b : Z) : list Z := [H (b / 16); H (b mod 16)].

(** The escapes \xHH, \uHHHH, \UHHHHHH and the doubled backslash. *)
Definition esc_x (b : Z) : list Z := [92; 120] ++ HH b.
Definition esc_u (c : Z) : list Z := [92; 117] ++ HH (c / 256) ++ HH (c mod 256).
Definition esc_U (c : Z) : list Z := [92; 85] ++ HH (c / 65536) ++ HH (c / 256 mod 256) ++ HH (c mod 256).
Definition esc_bs : list Z := [92; 92].

(** A control character of ASCII. *)
Definition control (c : Z) : bool := (c <? 32) || (c =? 127).

(** A scalar value as printed in UTF-8 and CESU-8 strings, and in UTF-16 strings: only the escape of control characters
    differs. *)
Definition esc8 (c : Z) : list Z :=
  if c =? 92 then esc_bs else if control c then esc_x c else if c <? 128 then [c]
  else if c <? 0x10000 then esc_u c else esc_U c.
Definition esc16 (c : Z) : list Z :=
  if c =? 92 then esc_bs else if control c then esc_u c else if c <? 128 then [c]
  else if c <? 0x10000 then esc_u c else esc_U c.

(** The bytes of a string in hexadecimal, separated by spaces. *)
Fixpoint dump (bs : list Z) : list Z :=
  match bs with
  | [] => []
  | [b] => HH b
  | b :: r => HH b ++ [32] ++ dump r
  end.

(** A UTF-16 byte sequence made of whole 16-bit units in which every unit between D800 and DFFF is followed by another
    unit, [hi] being the position of the more significant byte of a unit: 0 in big-endian, 1 in little-endian text. *)
Inductive whole16 (hi : nat) : list Z -> Prop :=
| whole16_nil : whole16 hi []
| whole16_unit : forall a b r, ~ 0xD8 <= nth hi [a; b] 0 <= 0xDF -> whole16 hi r -> whole16 hi (a :: b :: r)
| whole16_pair : forall a b c d r, 0xD8 <= nth hi [a; b] 0 <= 0xDF -> whole16 hi r -> whole16 hi (a :: b :: c :: d :: r).

(** The number a sequence of decimal digits stands for, with an optional minus sign. *)
Definition read_digits (t : list Z) : Z := fold_left (fun n c => n * 10 + (c - 48)) t 0.
Definition read_dec (t : list Z) : Z :=
  match t with 45 :: r => - read_digits r | _ => read_digits t end.
