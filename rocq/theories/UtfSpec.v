(** The Unicode encoding forms, from the Unicode Standard (chapter 3.9, tables 3-5 and 3-6) and Unicode Technical
    Report 26 (CESU-8), written with division and remainder only. *)
From Coq Require Import List ZArith.
Import ListNotations.
Local Open Scope Z_scope.

(** A Unicode scalar value: a code point that is not a surrogate. *)
Definition scalar (c : Z) : Prop := 0 <= c <= 0xD7FF \/ 0xE000 <= c <= 0x10FFFF.

Definition byte (b : Z) : Prop := 0 <= b <= 255.

(** A trailing byte carries six bits. *)
Definition trail (c : Z) : Z := 128 + c mod 64.

Definition utf8 (c : Z) : list Z :=
  if c <? 0x80 then [c]
  else if c <? 0x800 then [192 + c / 64; trail c]
  else if c <? 0x10000 then [224 + c / 4096; trail (c / 64); trail c]
  else [240 + c / 262144; trail (c / 4096); trail (c / 64); trail c].

(** The one or two 16-bit code units of a scalar value. *)
Definition utf16_units (c : Z) : list Z :=
  if c <? 0x10000 then [c]
  else [0xD800 + (c - 0x10000) / 1024; 0xDC00 + (c - 0x10000) mod 1024].

Definition utf16be (c : Z) : list Z := flat_map (fun u => [u / 256; u mod 256]) (utf16_units c).
Definition utf16le (c : Z) : list Z := flat_map (fun u => [u mod 256; u / 256]) (utf16_units c).

(** CESU-8: the UTF-8 bit distribution applied to each 16-bit code unit. *)
Definition cesu8 (c : Z) : list Z := flat_map utf8 (utf16_units c).

(** [bs] encodes the text [cs]. *)
Definition encodes (enc : Z -> list Z) (cs : list Z) (bs : list Z) : Prop :=
  Forall scalar cs /\ bs = flat_map enc cs.

(** The byte offset at which character number [k] of the text starts; the offsets of all characters and of the end. *)
Definition offset (enc : Z -> list Z) (cs : list Z) (k : nat) : Z := Z.of_nat (length (flat_map enc (firstn k cs))).
Definition offsets (enc : Z -> list Z) (cs : list Z) : list Z := map (offset enc cs) (seq 0 (S (length cs))).
