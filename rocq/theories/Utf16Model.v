(** Model of UTF-16 coding and validation (proptest/util/utf16string.cpp); conventions as in Utf8Model. *)
From Coq Require Import List ZArith Bool.
From Verif Require Import Base Utf8Model.
Import ListNotations.
Local Open Scope Z_scope.

(** utf16string.cpp:317-328, the body of the validation loop of isValidUTF16BE. *)
Definition isValidUTF16BEStep (chars : list Z) (i : Z) : res (option Z) :=
  if i + 2 >? bsize chars then Ok None
  else do c <- idx chars i;
  if (c <=? 0xD7) || (0xE0 <=? c) then Ok (Some (i + 1))
  else if i + 4 >? bsize chars then Ok None
  else do b <- band (inb 0xD8 chars i 0xDB) (inb 0xDC chars (i + 2) 0xDF);
  if b then Ok (Some (i + 3)) else Ok None.

(** utf16string.cpp:343-354, the body of the validation loop of isValidUTF16LE. *)
Definition isValidUTF16LEStep (chars : list Z) (i : Z) : res (option Z) :=
  if i + 2 >? bsize chars then Ok None
  else do c <- idx chars (i + 1);
  if (c <=? 0xD7) || (0xE0 <=? c) then Ok (Some (i + 1))
  else if i + 4 >? bsize chars then Ok None
  else do b <- band (inb 0xD8 chars (i + 1) 0xDB) (inb 0xDC chars (i + 3) 0xDF);
  if b then Ok (Some (i + 3)) else Ok None.

(** utf16string.cpp:313-331 and 339-357. *)
Definition isValidUTF16BE (chars : list Z) : res (bool * Z) := isValidLoop isValidUTF16BEStep (length chars) chars 0 0.
(** utf16string.cpp:339-357. *)
Definition isValidUTF16LE (chars : list Z) : res (bool * Z) := isValidLoop isValidUTF16LEStep (length chars) chars 0 0.

(** utf16string.cpp:281-292, 294-305 UTF16BECharSize, UTF16LECharSize; 8-36 charsize. *)
Definition UTF16BECharSize (str : list Z) : res Z :=
  do r <- isValidUTF16BE str; if fst r then Ok (snd r) else Ok (-1).
(** utf16string.cpp:294-305. *)
Definition UTF16LECharSize (str : list Z) : res Z :=
  do r <- isValidUTF16LE str; if fst r then Ok (snd r) else Ok (-1).
(** utf16string.cpp:8-21. *)
Definition utf16be_charsize (str : list Z) : res Z :=
  do s <- UTF16BECharSize str; if s <? 0 then Throw ERuntime else Ok (wrapU 64 s).
(** utf16string.cpp:23-36. *)
Definition utf16le_charsize (str : list Z) : res Z :=
  do s <- UTF16LECharSize str; if s <? 0 then Throw ERuntime else Ok (wrapU 64 s).

(** utf16string.cpp:112-116, 144-148, 209-213, 238-242: the code of the surrogate pair of 16-bit units [s0], [s1].
    [s0 - 0xD800] is an int that is not negative where this is used, so the shift is defined; [s1 - 0xDC00] is an
    int that may be negative and is then converted to uint32_t. *)
Definition unitsCode (s0 s1 : Z) : Z :=
  let p0 := wrapU 32 (Z.shiftl (s0 - 0xD800) 10) in
  let p1 := wrapU 32 (s1 - 0xDC00) in
  wrapU 32 (0x10000 + p0 + p1).

(** (a << 8) + b on bytes, converted to uint16_t. *)
Definition unit16 (a b : Z) : Z := wrapU 16 (Z.shiftl a 8 + b).

(** utf16string.cpp:126-151 decodeUTF16BE(chars). *)
Definition decodeUTF16BE (chars : list Z) : res Z :=
  if 2 >? bsize chars then Throw ERuntime
  else do c0 <- idx chars 0; do c1 <- idx chars 1;
  if (c0 =? 0) && (c1 <=? 0x7f) then Ok (wrapU 32 c1)
  else if (c0 <=? 0xD7) || (0xE0 <=? c0) then Ok (wrapU 32 (Z.shiftl c0 8 + c1))
  else if 4 >? bsize chars then Throw ERuntime
  else do c2 <- idx chars 2; do c3 <- idx chars 3; Ok (unitsCode (unit16 c0 c1) (unit16 c2 c3)).

(** utf16string.cpp:220-245 decodeUTF16LE(chars). *)
Definition decodeUTF16LE (chars : list Z) : res Z :=
  if 2 >? bsize chars then Throw ERuntime
  else do c1 <- idx chars 1; do c0 <- idx chars 0;
  if (c1 =? 0) && (c0 <=? 0x7f) then Ok (wrapU 32 c0)
  else if (c1 <=? 0xD7) || (0xE0 <=? c1) then Ok (wrapU 32 (Z.shiftl c1 8 + c0))
  else if 4 >? bsize chars then Throw ERuntime
  else do c3 <- idx chars 3; do c2 <- idx chars 2; Ok (unitsCode (unit16 c1 c0) (unit16 c3 c2)).

(** utf16string.cpp:163-178, 257-273: the four bytes c0..c3 of a surrogate pair, with the test that throws. *)
Definition surrogatesOf (code : Z) : res (Z * Z * Z * Z) :=
  let code := wrapU 32 (code - 0x10000) in
  let s0 := wrapU 16 (0xD800 + Z.shiftr code 10) in
  let s1 := wrapU 16 (0xDC00 + Z.land code 0x3FF) in
  let c0 := wrapU 8 (Z.shiftr s0 8) in
  let c1 := wrapU 8 (Z.land s0 0xFF) in
  let c2 := wrapU 8 (Z.shiftr s1 8) in
  let c3 := wrapU 8 (Z.land s1 0xFF) in
  if negb ((0xD8 <=? c0) && (c0 <=? 0xDB) && (0xDC <=? c2) && (c2 <=? 0xDF)) then Throw ERuntime
  else Ok (c0, c1, c2, c3).

(** utf16string.cpp:153-185 encodeUTF16BE. *)
Definition encodeUTF16BE (code : Z) (chars : list Z) : res (list Z) :=
  if (code <=? 0xD7FF) || ((0xE000 <=? code) && (code <=? 0xFFFF)) then
    Ok (chars ++ [wrapU 8 (Z.shiftr code 8); wrapU 8 (Z.land code 0xff)])
  else do q <- surrogatesOf code;
       match q with (c0, c1, c2, c3) => Ok (chars ++ [c0; c1; c2; c3]) end.

(** utf16string.cpp:247-279 encodeUTF16LE. *)
Definition encodeUTF16LE (code : Z) (chars : list Z) : res (list Z) :=
  if (code <=? 0xD7FF) || ((0xE000 <=? code) && (code <=? 0xFFFF)) then
    Ok (chars ++ [wrapU 8 (Z.land code 0xff); wrapU 8 (Z.shiftr code 8)])
  else do q <- surrogatesOf code;
       match q with (c0, c1, c2, c3) => Ok (chars ++ [c1; c0; c3; c2]) end.
